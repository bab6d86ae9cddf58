(** The dimension of the image of H_n(K_s) in H_n(K_t) is well defined: two bases have the same length. *)
From Verif Require Import Base Fields Spec LinAlg SpecPH Graded Persistence.
From Coq Require Import Ring Field.
Set Implicit Arguments.

Lemma list_choice {A : ordT} {B : Type} (P : A -> B -> Prop) (d : B) (l : list A) :
  (forall a, In a l -> exists b, P a b) -> exists f : A -> B, forall a, In a l -> P a (f a).
Proof.
  induction l as [|x l IH]; intros H.
  - exists (fun _ => d). intros a [].
  - destruct IH as (f & Hf); [intros a Ha; apply H; simpl; auto|].
    destruct (H x (or_introl eq_refl)) as (b & Hb).
    exists (fun a => if oeqb x a then b else f a). intros a [<-|Ha]; [now rewrite oeqb_refl|].
    destruct (oeqb_spec x a) as [->|]; auto.
Qed.

Section Ker.
Context {K : coeffT}.
Add Field KFk : (F_field K).
(** fewer equations than unknowns: a non-trivial solution *)
Lemma kernel_nontrivial {J : Type} {I : ordT} (Eqs : list J) :
  forall (A : J -> I -> option K) (U : list I), NoDup U -> length Eqs < length U ->
  exists x : I -> option K, (exists u, In u U /\ x u <> f0) /\ forall j, In j Eqs -> vsum U (fun u => fmul (A j u) (x u)) = f0.
Proof.
  induction Eqs as [|j Eqs IH]; intros A U HU Hlen.
  - destruct U as [|u U]; [simpl in Hlen; lia|]. exists (fun _ => f1). split; [exists u; simpl; split; [auto|apply f1_neq0]|intros j []].
  - simpl in Hlen. destruct (@exists_or I (fun u => A j u <> f0) U) as [(u0 & Hu0 & Hn)|Hz].
    { intros u _. destruct (fscalar_dec (A j u)); tauto. }
    + apply in_split in Hu0. destruct Hu0 as (U1 & U2 & ->).
      assert (HU' : NoDup (U1 ++ U2)) by (eapply NoDup_remove_1; eauto).
      assert (Hni : ~ In u0 (U1 ++ U2)) by (eapply NoDup_remove_2; eauto).
      destruct (IH (fun k u => fsub (A k u) (fmul (fmul (A k u0) (finv (A j u0))) (A j u))) (U1 ++ U2) HU') as (x & (u & Hu & Hxu) & Hx).
      { rewrite !app_length in *. simpl in Hlen. lia. }
      set (S0 := vsum (U1 ++ U2) (fun u => fmul (A j u) (x u))).
      set (x0 := fopp (fmul (finv (A j u0)) S0)).
      exists (fun v => if oeqb u0 v then x0 else x v). split.
      * exists u. split; [apply in_app_iff; apply in_app_iff in Hu; simpl; tauto|].
        destruct (oeqb_spec u0 u) as [->|]; tauto.
      * assert (Es : forall k, vsum (U1 ++ u0 :: U2) (fun v => fmul (A k v) (if oeqb u0 v then x0 else x v)) =
          fadd (fmul (A k u0) x0) (vsum (U1 ++ U2) (fun v => fmul (A k v) (x v)))).
        { intros k. rewrite (@vsum_perm K I (U1 ++ u0 :: U2) (u0 :: U1 ++ U2)) by (symmetry; apply Permutation_middle).
          simpl. rewrite oeqb_refl. f_equal. apply vsum_ext. intros v Hv. destruct (oeqb_spec u0 v) as [->|]; tauto. }
        intros k Hk. rewrite Es. destruct Hk as [<-|Hk].
        -- fold S0. unfold x0. field. exact Hn.
        -- specialize (Hx k Hk).
           assert (E2 : vsum (U1 ++ U2) (fun v => fmul (A k v) (x v)) = fmul (fmul (A k u0) (finv (A j u0))) S0).
           { unfold S0. rewrite <- vsum_mul_l.
             assert (E3 : vsum (U1 ++ U2) (fun u => fadd (fmul (fsub (A k u) (fmul (fmul (A k u0) (finv (A j u0))) (A j u))) (x u)) (fmul (fmul (A k u0) (finv (A j u0))) (fmul (A j u) (x u)))) =
               vsum (U1 ++ U2) (fun u => fmul (fmul (A k u0) (finv (A j u0))) (fmul (A j u) (x u)))).
             { rewrite vsum_add. rewrite Hx. ring. }
             rewrite <- E3. apply vsum_ext. intros v _. ring. }
           rewrite E2. unfold x0. ring.
    + destruct (IH A U HU) as (x & Hne & Hx); [lia|]. exists x. split; auto.
      intros k [<-|Hk]; auto. apply vsum_0. intros u Hu. destruct (fscalar_dec (A j u)) as [->|Hn]; [ring|]. exfalso. apply (Hz u Hu Hn).
Qed.
End Ker.

Section Unique.
  Context {K : coeffT} {F C : ordT} (phi : C -> F) (g : C -> Z) (e : Z) (l : list C) (D : C -> vec K C).
  Add Field KFU : (F_field K).

  Lemma basis_length_le {I J : ordT} n s t (bars : list I) (Z : I -> vec K C) (bars' : list J) (Z' : J -> vec K C) :
    persistent_basis phi g e l D n s t bars Z -> persistent_basis phi g e l D n s t bars' Z' -> length bars' <= length bars.
  Proof.
    intros (_ & _ & Hspan & _) (Hn' & Hc' & _ & Hind).
    destruct (Nat.le_gt_cases (length bars') (length bars)) as [|Hgt]; auto. exfalso.
    destruct (@list_choice J (vec K I * vec K C) (fun b p => chain_at phi g l (n - e) t (snd p) /\
       forall r, bdry l D (snd p) r = fsub (Z' b r) (lincomb bars (fst p) Z r)) (fun _ => f0, fun _ => f0) bars') as (f & Hf).
    { intros b Hb. destruct (Hspan (Z' b) (Hc' b Hb)) as (a & w & H1 & H2). exists (a, w). auto. }
    destruct (@kernel_nontrivial K I J bars (fun b b' => fst (f b') b) bars' Hn' Hgt) as (x & (u & Hu & Hxu) & Hx).
    apply Hxu. apply (Hind x); auto. exists (lincomb bars' x (fun b => snd (f b))). split.
    - apply chain_comb. intros b Hb _. apply Hf. auto.
    - intros r. unfold bdry. rewrite <- lincomb_assoc.
      transitivity (lincomb bars' x (fun b r => fsub (Z' b r) (lincomb bars (fst (f b)) Z r)) r).
      { apply lincomb_ext; auto. intros b Hb. apply Hf. auto. }
      transitivity (fsub (lincomb bars' x Z' r) (lincomb bars' x (fun b => lincomb bars (fst (f b)) Z) r)).
      { unfold lincomb at 1 3 4. 
        transitivity (vsum bars' (fun b => fadd (fmul (x b) (Z' b r)) (fmul (fopp f1) (fmul (x b) (lincomb bars (fst (f b)) Z r))))).
        - apply vsum_ext. intros; ring.
        - rewrite vsum_add, vsum_mul_l. fold (lincomb bars' x Z' r). generalize (vsum bars' (fun b : J => fmul (x b) (lincomb bars (fst (f b)) Z r))) (lincomb bars' x Z' r). intros; ring. }
      rewrite lincomb_assoc. rewrite (@lincomb_0 K _ _ bars _ Z r); [ring|].
      intros b Hb. left. rewrite <- (Hx b Hb). unfold lincomb. apply vsum_ext. intros; ring.
  Qed.

  Lemma basis_length_unique {I J : ordT} n s t (bars : list I) (Z : I -> vec K C) (bars' : list J) (Z' : J -> vec K C) :
    persistent_basis phi g e l D n s t bars Z -> persistent_basis phi g e l D n s t bars' Z' -> length bars = length bars'.
  Proof. intros H H'. apply Nat.le_antisymm; eapply basis_length_le; eauto. Qed.

  Lemma betti_unique n s t k k' : persistent_betti phi g e l D n s t k -> persistent_betti phi g e l D n s t k' -> k = k'.
  Proof. intros (I & b & Z & H & <-) (J & b' & Z' & H' & <-). eapply basis_length_unique; eauto. Qed.
End Unique.
