(** Linear algebra over the specification of [Spec]. *)
From Verif Require Import Base Fields Spec.
From Coq Require Import Ring Field.
Set Implicit Arguments.

Section RowLt.
  Context {F R : ordT} (phi : R -> F).

  Lemma row_lt_ord r s : row_lt phi r s <-> @olt (row_ord phi) r s.
  Proof.
    unfold row_lt, olt. simpl. unfold row_cmp.
    destruct (cmp (phi r) (phi s)) eqn:E; split; intros H; try tauto.
    - destruct H as [H|[_ H]]; [discriminate|exact H].
    - right. split; auto. now apply cmp_eq.
    - destruct H as [H|[H _]]; [discriminate|]. rewrite H, cmp_refl in E. discriminate.
  Qed.

  Lemma row_le_ord r s : row_le phi r s <-> @ole (row_ord phi) r s.
  Proof. unfold row_le. rewrite row_lt_ord, (@ole_lt_eq (row_ord phi)). tauto. Qed.

  Lemma row_lt_irrefl r : ~ row_lt phi r r.
  Proof. rewrite row_lt_ord. apply olt_irrefl. Qed.
  Lemma row_lt_trans r s t : row_lt phi r s -> row_lt phi s t -> row_lt phi r t.
  Proof. rewrite !row_lt_ord. apply (@olt_trans (row_ord phi)). Qed.
  Lemma row_le_refl r : row_le phi r r.
  Proof. right; reflexivity. Qed.
  Lemma row_le_trans r s t : row_le phi r s -> row_le phi s t -> row_le phi r t.
  Proof. rewrite !row_le_ord. apply (@ole_trans (row_ord phi)). Qed.
  Lemma row_le_lt_trans r s t : row_le phi r s -> row_lt phi s t -> row_lt phi r t.
  Proof. rewrite row_le_ord, !row_lt_ord. apply (@ole_lt_trans (row_ord phi)). Qed.
  Lemma row_lt_le_trans r s t : row_lt phi r s -> row_le phi s t -> row_lt phi r t.
  Proof. rewrite row_le_ord, !row_lt_ord. apply (@olt_le_trans (row_ord phi)). Qed.
  Lemma row_le_antisym r s : row_le phi r s -> row_le phi s r -> r = s.
  Proof. rewrite !row_le_ord. apply (@ole_antisym (row_ord phi)). Qed.
  Lemma row_lt_total r s : row_lt phi r s \/ r = s \/ row_lt phi s r.
  Proof. rewrite !row_lt_ord. apply (@olt_total (row_ord phi)). Qed.
  Lemma row_le_not_lt r s : row_le phi r s <-> ~ row_lt phi s r.
  Proof. rewrite row_le_ord, row_lt_ord. apply (@ole_not_lt (row_ord phi)). Qed.
  Lemma row_lt_le r s : row_lt phi r s -> row_le phi r s.
  Proof. now left. Qed.
  Lemma row_lt_ne r s : row_lt phi r s -> r <> s.
  Proof. intros H ->. eapply row_lt_irrefl; eauto. Qed.
End RowLt.

Section Scalars.
  Context {K : coeffT}.
  Add Field KF0 : (F_field K).

  Lemma some_neq0 (c : K) : Some c <> (f0 : option K).
  Proof. discriminate. Qed.
  Lemma fscalar_dec (a : option K) : {a = f0} + {a <> f0}.
  Proof. destruct a; [right; discriminate|left; reflexivity]. Qed.
  Lemma fadd_0_l (a : option K) : fadd f0 a = a. Proof. ring. Qed.
  Lemma fadd_0_r (a : option K) : fadd a f0 = a. Proof. ring. Qed.
  Lemma fmul_0_l (a : option K) : fmul f0 a = f0. Proof. ring. Qed.
  Lemma fmul_0_r (a : option K) : fmul a f0 = f0. Proof. ring. Qed.
  Lemma fmul_1_l (a : option K) : fmul f1 a = a. Proof. ring. Qed.
  Lemma f1_neq0 : (f1 : option K) <> f0. Proof. discriminate. Qed.
  Lemma fmul_neq0 (a b : option K) : a <> f0 -> b <> f0 -> fmul a b <> f0.
  Proof. destruct a, b; simpl; unfold fmul, f0; simpl; congruence. Qed.
  Lemma finv_neq0 (a : option K) : a <> f0 -> finv a <> f0.
  Proof. destruct a; unfold finv, f0; simpl; congruence. Qed.
  Lemma fmul_eq0 (a b : option K) : fmul a b = f0 -> a = f0 \/ b = f0.
  Proof. destruct a, b; unfold fmul, f0; simpl; auto. discriminate. Qed.
  Lemma k_mul_f (a b : K) : Some (k_mul a b) = fmul (Some a) (Some b).
  Proof. reflexivity. Qed.
  Lemma k_neg_f (a : K) : Some (k_neg a) = fopp (Some a).
  Proof. reflexivity. Qed.
  Lemma k_inv_f (a : K) : Some (k_inv a) = finv (Some a).
  Proof. reflexivity. Qed.
  Lemma add_opt_f (a : K) (b : option K) : add_opt k_add a b = fadd (Some a) b.
  Proof. reflexivity. Qed.
End Scalars.

Section VSum.
  Context {K : coeffT}.
  Add Field KF1 : (F_field K).
  Context {A : Type}.
  Implicit Types (f g : A -> option K) (l : list A).

  Lemma vsum_app l1 l2 f : vsum (l1 ++ l2) f = fadd (vsum l1 f) (vsum l2 f).
  Proof. induction l1 as [|a l1 IH]; simpl; [ring|rewrite IH; ring]. Qed.
  Lemma vsum_ext l f g : (forall a, In a l -> f a = g a) -> vsum l f = vsum l g.
  Proof. induction l as [|a l IH]; simpl; intros H; auto. rewrite (H a), IH; auto. Qed.
  Lemma vsum_0 l f : (forall a, In a l -> f a = f0) -> vsum l f = f0.
  Proof. induction l as [|a l IH]; simpl; intros H; auto. rewrite (H a), IH; auto. Qed.
  Lemma vsum_add l f g : vsum l (fun a => fadd (f a) (g a)) = fadd (vsum l f) (vsum l g).
  Proof. induction l as [|a l IH]; simpl; [ring|rewrite IH; ring]. Qed.
  Lemma vsum_mul_l l c f : vsum l (fun a => fmul c (f a)) = fmul c (vsum l f).
  Proof. induction l as [|a l IH]; simpl; [ring|rewrite IH; ring]. Qed.
  Lemma vsum_perm l l' f : Permutation l l' -> vsum l f = vsum l' f.
  Proof. induction 1; simpl; try congruence. ring. Qed.
  Lemma vsum_single l f a : NoDup l -> In a l -> (forall b, In b l -> b <> a -> f b = f0) -> vsum l f = f a.
  Proof.
    induction l as [|b l IH]; simpl; [tauto|].
    intros Hnd Hin Hz. inversion Hnd; subst. destruct Hin as [->|Hin].
    - rewrite vsum_0; [ring|]. intros c Hc. apply Hz; auto. intros ->. tauto.
    - assert (Hba : b <> a) by (intros ->; tauto).
      rewrite (Hz b) by auto. rewrite IH; auto.
  Qed.
End VSum.

Lemma vsum_swap {K : coeffT} {A B} (l : list A) (m : list B) (f : A -> B -> option K) :
  vsum l (fun a => vsum m (fun b => f a b)) = vsum m (fun b => vsum l (fun a => f a b)).
Proof.
  induction l as [|a l IH]; simpl.
  - symmetry. apply vsum_0. auto.
  - rewrite IH, vsum_add. reflexivity.
Qed.

Lemma vsum_map {K : coeffT} {A B} (l : list A) (g : A -> B) (f : B -> option K) :
  vsum (map g l) f = vsum l (fun a => f (g a)).
Proof. induction l as [|a l IH]; simpl; congruence. Qed.

Lemma vsum_filter {K : coeffT} {A} (l : list A) (p : A -> bool) (f : A -> option K) :
  vsum (filter p l) f = vsum l (fun a => if p a then f a else f0).
Proof.
  induction l as [|a l IH]; simpl; auto.
  destruct (p a); simpl; rewrite IH; auto.
Qed.

Section Coef.
  Context {K : coeffT} {R : ordT}.
  Add Field KF2 : (F_field K).
  Implicit Types (l : list (K * R)).

  Lemma coef_app l1 l2 r : coef (l1 ++ l2) r = fadd (coef l1 r) (coef l2 r).
  Proof.
    induction l1 as [|[c x] l1 IH]; simpl; [ring|].
    destruct (oeqb x r); rewrite IH; ring.
  Qed.
  Lemma coef_perm l l' r : Permutation l l' -> coef l r = coef l' r.
  Proof.
    induction 1 as [|[c x] l l' _ IH|[c x] [d y] l|]; simpl; try congruence.
    - now rewrite IH.
    - destruct (oeqb x r), (oeqb y r); ring.
  Qed.
  Lemma coef_notin l r : (forall c, ~ In (c, r) l) -> coef l r = f0.
  Proof.
    induction l as [|[c x] l IH]; simpl; intros H; auto.
    destruct (oeqb_spec x r) as [->|Hx].
    - exfalso. apply (H c). auto.
    - apply IH. intros d Hd. apply (H d). auto.
  Qed.
  Lemma coef_in l r : coef l r <> f0 -> exists c, In (c, r) l.
  Proof.
    induction l as [|[c x] l IH]; simpl; [tauto|].
    destruct (oeqb_spec x r) as [->|Hx]; eauto.
    intros H. destruct (IH H) as [d Hd]. eauto.
  Qed.
  Lemma coef_vsum l r : coef l r = vsum l (fun p => if oeqb (snd p) r then Some (fst p) else f0).
  Proof.
    induction l as [|[c x] l IH]; simpl; auto.
    destruct (oeqb x r); rewrite IH; auto.
  Qed.
  Lemma coef_scale l m r :
    coef (map (fun p => (k_mul (fst p) m, snd p)) l) r = fmul (Some m) (coef l r).
  Proof.
    induction l as [|[c x] l IH]; simpl; [ring|].
    rewrite IH. destruct (oeqb x r); [|reflexivity]. rewrite k_mul_f. ring.
  Qed.
  (** in a list without repeated rows the coefficient is read off *)
  Lemma coef_nodup l c r : NoDup (map snd l) -> In (c, r) l -> coef l r = Some c.
  Proof.
    induction l as [|[d x] l IH]; simpl; [tauto|].
    intros Hnd [E|Hin]; inversion Hnd; subst.
    - inversion E; subst. rewrite oeqb_refl, coef_notin; [ring|].
      intros e He. apply H1. now apply (in_map snd) in He.
    - destruct (oeqb_spec x r) as [->|Hx]; auto.
      exfalso. apply H1. now apply (in_map snd) in Hin.
  Qed.
End Coef.

(** coefficient of a flat-mapped sum *)
Lemma coef_flat_map {K : coeffT} {R : ordT} {A} (g : A -> list (K * R)) (l : list A) r :
  coef (flat_map g l) r = vsum l (fun a => coef (g a) r).
Proof.
  induction l as [|a l IH]; simpl; auto. now rewrite coef_app, IH.
Qed.

Section Product.
  Context {K : coeffT} {C R : ordT}.
  Add Field KF3 : (F_field K).

  (** coefficients of "sum over terms of the chain [l] of coefficient times column":
      the same as the linear combination over any basis containing the support *)
  Lemma coef_combine (l : list (K * C)) (D : C -> vec K R) (B : list C) r :
    NoDup B -> (forall c b, In (c, b) l -> In b B) ->
    vsum l (fun p => fmul (D (snd p) r) (Some (fst p))) = lincomb B (coef l) D r.
  Proof.
    intros HB. unfold lincomb. induction l as [|[c x] l IH]; simpl; intros Hin.
    - symmetry. apply vsum_0. intros. ring.
    - rewrite IH by eauto.
      transitivity (vsum B (fun b => fadd (fmul (if oeqb x b then Some c else f0) (D b r))
                                          (fmul (coef l b) (D b r)))).
      + rewrite vsum_add. f_equal.
        rewrite (vsum_single _ (a:=x)); eauto.
        * rewrite oeqb_refl. ring.
        * intros b _ Hb. assert (E: oeqb x b = false) by (apply oeqb_neq; congruence).
          rewrite E. ring.
      + apply vsum_ext. intros b _. destruct (oeqb x b); ring.
  Qed.
End Product.

Section LinComb.
  Context {K : coeffT} {C R : ordT}.
  Add Field KF4 : (F_field K).
  Implicit Types (x y : vec K C) (D : C -> vec K R).

  Lemma lincomb_ext B x x' D D' r :
    (forall b, In b B -> x b = x' b) -> (forall b, In b B -> D b r = D' b r) ->
    lincomb B x D r = lincomb B x' D' r.
  Proof. intros H1 H2. apply vsum_ext. intros b Hb. rewrite H1, H2; auto. Qed.

  Lemma lincomb_add B x y D r :
    lincomb B (fun b => fadd (x b) (y b)) D r = fadd (lincomb B x D r) (lincomb B y D r).
  Proof.
    unfold lincomb. rewrite <- vsum_add. apply vsum_ext. intros; ring.
  Qed.
  Lemma lincomb_scale B c x D r :
    lincomb B (fun b => fmul c (x b)) D r = fmul c (lincomb B x D r).
  Proof. unfold lincomb. rewrite <- vsum_mul_l. apply vsum_ext. intros; ring. Qed.
  Lemma lincomb_app B1 B2 x D r :
    lincomb (B1 ++ B2) x D r = fadd (lincomb B1 x D r) (lincomb B2 x D r).
  Proof. apply vsum_app. Qed.
  Lemma lincomb_0 B x D r : (forall b, In b B -> x b = f0 \/ D b r = f0) -> lincomb B x D r = f0.
  Proof.
    intros H. apply vsum_0. intros b Hb. destruct (H b Hb) as [->| ->]; ring.
  Qed.
  Lemma lincomb_unit B D j r :
    NoDup B -> In j B -> lincomb B (fun b => if oeqb j b then f1 else f0) D r = D j r.
  Proof.
    intros HB Hj. unfold lincomb. rewrite (vsum_single _ (a:=j)); auto.
    - rewrite oeqb_refl. ring.
    - intros b _ Hb. assert (E: oeqb j b = false) by (apply oeqb_neq; congruence). rewrite E. ring.
  Qed.
  (** the support may be enlarged or shrunk *)
  Lemma lincomb_incl B B' x D r :
    NoDup B -> NoDup B' -> incl B B' -> (forall b, In b B' -> ~ In b B -> x b = f0) ->
    lincomb B' x D r = lincomb B x D r.
  Proof.
    intros HB HB' Hi Hz.
    pose (p := fun b => set_mem b B).
    assert (E : Permutation (filter p B') B).
    { apply NoDup_Permutation; auto using NoDup_filter.
      intros b. rewrite filter_In. unfold p. rewrite set_mem_iff. firstorder. }
    unfold lincomb. rewrite <- (vsum_perm _ E), vsum_filter. apply vsum_ext.
    intros b Hb. unfold p. destruct (set_mem b B) eqn:Em; auto.
    rewrite Hz; [ring|auto|]. rewrite <- set_mem_iff, Em. discriminate.
  Qed.
End LinComb.

Lemma lincomb_assoc {K : coeffT} {C C' R : ordT} (B : list C) (B' : list C')
    (x : vec K C) (V : C -> vec K C') (D : C' -> vec K R) r :
  lincomb B x (fun j => lincomb B' (V j) D) r = lincomb B' (lincomb B x V) D r.
Proof.
  unfold lincomb.
  transitivity (vsum B (fun a => vsum B' (fun b => fmul (fmul (x a) (V a b)) (D b r)))).
  - apply vsum_ext. intros a _. rewrite <- vsum_mul_l. apply vsum_ext. intros b _.
    destruct (F_ring K). now rewrite Rmul_assoc.
  - rewrite vsum_swap. apply vsum_ext. intros b _.
    destruct (F_ring K). rewrite (Rmul_comm _ (D b r)), <- vsum_mul_l.
    apply vsum_ext. intros a _. now rewrite Rmul_comm.
Qed.

(* ------------------------------------------------------------------ *)
(** ** Leading rows *)
Section Leading.
  Context {K : coeffT} {F R : ordT} (phi : R -> F).
  Implicit Types (v w : vec K R).

  Lemma leading_unique v i i' : leading phi v i -> leading phi v i' -> i = i'.
  Proof.
    intros [H1 H2] [H3 H4].
    destruct (row_lt_total phi i i') as [H|[H|H]]; auto.
    - exfalso. apply H3. auto.
    - exfalso. apply H1. auto.
  Qed.
  Lemma leading_ext v w i : (forall r, v r = w r) -> leading phi v i -> leading phi w i.
  Proof. intros E [H1 H2]. split; [now rewrite <- E|]. intros r Hr. rewrite <- E. auto. Qed.
  Lemma leading_not_zero v i : leading phi v i -> ~ vzero v.
  Proof. intros [H _] Hz. apply H, Hz. Qed.

  (** a vector supported on a finite list of rows is zero or has a leading row *)
  Lemma leading_exists (S : list R) v :
    (forall r, v r <> f0 -> In r S) -> vzero v \/ exists i, leading phi v i.
  Proof.
    revert v. induction S as [|s S IH]; intros v Hs.
    - left. intros r. destruct (fscalar_dec (v r)) as [E|E]; auto. destruct (Hs r E).
    - destruct (IH (fun r => if oeqb s r then f0 else v r)) as [Hz|[i [Hi1 Hi2]]].
      + intros r. destruct (oeqb_spec s r) as [->|Hr]; [congruence|].
        intros Hv. destruct (Hs r Hv); [congruence|auto].
      + destruct (fscalar_dec (v s)) as [E|E].
        * left. intros r. specialize (Hz r). cbv beta in Hz.
          destruct (oeqb_spec s r) as [Esr|Esr]; [subst r|]; auto.
        * right. exists s. split; auto. intros r Hr. specialize (Hz r). cbv beta in Hz.
          destruct (oeqb_spec s r) as [Esr|Esr]; [subst r|]; auto. exfalso; eapply row_lt_irrefl; eauto.
      + cbv beta in Hi1, Hi2. destruct (oeqb_spec s i) as [->|Hsi]; [congruence|].
        right. destruct (fscalar_dec (v s)) as [E|E].
        * exists i. split; auto. intros r Hr. specialize (Hi2 r Hr).
          destruct (oeqb_spec s r) as [Esr|Esr]; [subst r|]; auto.
        * destruct (row_lt_total phi i s) as [H|[H|H]]; [|congruence|].
          -- exists s. split; auto. intros r Hr. specialize (Hi2 r (row_lt_trans H Hr)).
             destruct (oeqb_spec s r) as [Esr|Esr]; [subst r|]; auto. exfalso; eapply row_lt_irrefl; eauto.
          -- exists i. split; auto. intros r Hr. specialize (Hi2 r Hr).
             destruct (oeqb_spec s r) as [Esr|Esr]; [subst r|]; auto.
             exfalso. eapply row_lt_irrefl, row_lt_trans; eauto.
  Qed.
End Leading.

(* ------------------------------------------------------------------ *)
(** ** Combinations of columns with distinct leading rows *)
Section Reduced.
  Context {K : coeffT} {F C R : ordT} (phi : R -> F).
  Add Field KF5 : (F_field K).
  Variables (M : C -> vec K R).

  Definition dich (B : list C) := forall j, In j B -> vzero (M j) \/ exists i, leading phi (M j) i.

  (** A combination is zero iff every non-zero column has coefficient 0;
      otherwise its leading row is the leading row of a column with non-zero coefficient and bounds
      the leading rows of all columns with non-zero coefficient. *)
  Lemma reduced_comb (B : list C) (y : vec K C) :
    NoDup B -> dich B -> reduced phi B M ->
    (vzero (lincomb B y M) /\ (forall j, In j B -> y j = f0 \/ vzero (M j))) \/
    (exists i k, In k B /\ y k <> f0 /\ leading phi (M k) i /\ leading phi (lincomb B y M) i /\
       forall j i', In j B -> y j <> f0 -> leading phi (M j) i' -> row_le phi i' i).
  Proof.
    induction B as [|b B IH]; intros Hnd Hd Hr.
    - left. split; [intros r; reflexivity|intros j []].
    - inversion Hnd as [|? ? Hb Hnd']; subst.
      assert (Hd' : dich B) by (intros j Hj; apply Hd; simpl; auto).
      assert (Hr' : reduced phi B M) by (intros j k i Hj Hk; apply Hr; simpl; auto).
      specialize (IH Hnd' Hd' Hr').
      assert (Eb : forall r, lincomb (b :: B) y M r = fadd (fmul (y b) (M b r)) (lincomb B y M r))
        by reflexivity.
      destruct (fscalar_dec (y b)) as [E0|E0];
        [|destruct (Hd b (or_introl eq_refl)) as [Ez|[ib Hib]]].
      1,2: assert (Er : forall r, lincomb (b :: B) y M r = lincomb B y M r)
          by (intros r; rewrite Eb; first [rewrite E0|rewrite Ez]; ring).
      1,2: destruct IH as [[Hz Hall]|(i & k & Hk & Hyk & Hlk & Hl & Hmax)];
           [left; split; [intros r; rewrite Er; apply Hz|]; intros j [<-|Hj]; auto
           |right; exists i, k; refine (conj _ (conj Hyk (conj Hlk (conj _ _)))); simpl; auto;
            [eapply leading_ext; [|exact Hl]; intros r; rewrite Er; reflexivity|]].
      + intros j i' [<-|Hj]; [congruence|eauto].
      + intros j i' [<-|Hj]; [|eauto]. intros _ Hl'. exfalso. eapply leading_not_zero; eauto.
      + right. pose proof Hib as [Hib1 Hib2].
        destruct IH as [[Hz Hall]|(i & k & Hk & Hyk & Hlk & Hl & Hmax)].
        * exists ib, b. refine (conj _ (conj E0 (conj Hib (conj (conj _ _) _)))); simpl; auto.
          -- rewrite Eb, Hz. rewrite fadd_0_r. now apply fmul_neq0.
          -- intros r Hr0. rewrite Eb, Hz, Hib2; auto. ring.
          -- intros j i' [<-|Hj] Hy Hl'.
             ++ right. eapply leading_unique; eauto.
             ++ destruct (Hall j Hj) as [?|Hzj]; [congruence|]. exfalso; eapply leading_not_zero; eauto.
        * pose proof Hl as [Hl1 Hl2]. destruct (row_lt_total phi i ib) as [H|[H|H]].
          -- exists ib, b. refine (conj _ (conj E0 (conj Hib (conj (conj _ _) _)))); simpl; auto.
             ++ rewrite Eb, Hl2; auto. rewrite fadd_0_r. now apply fmul_neq0.
             ++ intros r Hr0. rewrite Eb, Hib2, Hl2; auto. ring.
                eapply row_lt_trans; eauto.
             ++ intros j i' [<-|Hj] Hy Hl'.
                ** right. eapply leading_unique; eauto.
                ** eapply row_le_trans; [eapply Hmax; eauto|]. now left.
          -- subst ib. exfalso. apply Hb.
             assert (b = k) by (eapply (Hr b k i); simpl; auto). now subst.
          -- exists i, k. refine (conj _ (conj Hyk (conj Hlk (conj (conj _ _) _)))); simpl; auto.
             ++ rewrite Eb, Hib2; auto. rewrite fmul_0_r, fadd_0_l. exact Hl1.
             ++ intros r Hr0. rewrite Eb, Hib2, Hl2; auto; [ring|eapply row_lt_trans; eauto].
             ++ intros j i' [<-|Hj] Hy Hl'.
                ** assert (i' = ib) by (eapply leading_unique; eauto). subst. now left.
                ** eauto.
  Qed.
End Reduced.

(* ------------------------------------------------------------------ *)
(** ** Triangular change of basis *)
Section Triangular.
  Context {K : coeffT} {C R : ordT}.
  Add Field KF6 : (F_field K).
  Variables (D : C -> vec K R) (V : C -> vec K C).

  (** every combination of columns of [D] is a combination of columns of [D V] *)
  Lemma triangular_solve (B2 B : list C) (x : vec K C) :
    NoDup (B ++ B2) ->
    (forall j, In j B -> ends_at (B ++ B2) (V j) j) ->
    exists y, (forall b, In b B -> lincomb B y V b = x b) /\
              (forall b, In b B2 -> lincomb B y V b = f0) /\
              (forall j B', B = B' ++ [j] -> x j <> f0 -> y j <> f0).
  Proof.
    revert B2 x. induction B as [|j B IH] using rev_ind; intros B2 x Hnd Ht.
    - exists x. split; [intros b []|]. split; [reflexivity|].
      intros j B' E. destruct B'; discriminate.
    - rewrite <- app_assoc in Hnd, Ht. simpl in Hnd, Ht.
      destruct (Ht j) as (B1 & B2' & E & Hj & Hz); [apply in_app_iff; simpl; auto|].
      assert (B1 = B /\ B2' = B2) as [-> ->].
      { assert (Hnb : ~ In j B) by (intros Hi; apply NoDup_remove_2 in Hnd; apply Hnd, in_app_iff; auto).
        assert (Hnb' : ~ In j B1).
        { rewrite E in Hnd. intros Hi; apply NoDup_remove_2 in Hnd; apply Hnd, in_app_iff; auto. }
        clear - E Hnb Hnb'. revert B1 E Hnb'. induction B as [|b B IHB]; intros [|b1 B1] E Hnb'; simpl in *.
        - inversion E; auto.
        - inversion E; subst. exfalso; auto.
        - inversion E; subst. exfalso; auto.
        - inversion E; subst. destruct (IHB (fun h => Hnb (or_intror h)) B1 H1) as [-> ->]; auto. }
      set (yj := fdiv (x j) (V j j)).
      destruct (IH (j :: B2) (fun b => fsub (x b) (fmul yj (V j b)))) as (y & Hy1 & Hy2 & _).
      + exact Hnd.
      + intros k Hk. apply Ht. apply in_app_iff; auto.
      + assert (Hjn : ~ In j B) by (intros Hi; apply NoDup_remove_2 in Hnd; apply Hnd, in_app_iff; auto).
        exists (fun b => if oeqb j b then yj else y b).
        assert (Es : forall b, lincomb (B ++ [j]) (fun b => if oeqb j b then yj else y b) V b =
                     fadd (lincomb B y V b) (fmul yj (V j b))).
        { intros b. rewrite lincomb_app. f_equal.
          - apply lincomb_ext; auto. intros k Hk. destruct (oeqb_spec j k); congruence.
          - unfold lincomb. simpl. rewrite oeqb_refl. ring. }
        split; [|split].
        * intros b Hb. rewrite Es. apply in_app_iff in Hb. destruct Hb as [Hb|[<-|[]]].
          -- rewrite Hy1 by auto. ring.
          -- rewrite Hy2 by (simpl; auto). unfold yj. rewrite fadd_0_l. field. exact Hj.
        * intros b Hb. rewrite Es, Hy2 by (simpl; auto). rewrite Hz by auto. ring.
        * intros j' B' Ej. apply app_inj_tail in Ej. destruct Ej as [_ <-].
          rewrite oeqb_refl. unfold yj, fdiv. intros Hx. apply fmul_neq0; auto. apply finv_neq0; auto.
  Qed.
End Triangular.

Lemma nodup_split_unique {A} (l1 l2 m1 m2 : list A) (a : A) :
  NoDup (l1 ++ a :: l2) -> l1 ++ a :: l2 = m1 ++ a :: m2 -> l1 = m1 /\ l2 = m2.
Proof.
  intros Hnd E.
  assert (Hnb : ~ In a l1) by (intros Hi; apply NoDup_remove_2 in Hnd; apply Hnd, in_app_iff; auto).
  assert (Hnb' : ~ In a m1).
  { rewrite E in Hnd. intros Hi; apply NoDup_remove_2 in Hnd; apply Hnd, in_app_iff; auto. }
  clear Hnd. revert m1 E Hnb'. induction l1 as [|b l1 IH]; intros [|b1 m1] E Hnb'; simpl in *.
  - inversion E; auto.
  - inversion E; subst. exfalso; auto.
  - inversion E; subst. exfalso; auto.
  - inversion E; subst. destruct (IH (fun h => Hnb (or_intror h)) m1 H1) as [-> ->]; auto.
Qed.

(* ------------------------------------------------------------------ *)
(** ** The pairing read off any reduced [D V] is the intrinsic one *)
Section Intrinsic.
  Context {K : coeffT} {F C R : ordT} (phi : R -> F).
  Add Field KF7 : (F_field K).
  Variables (B : list C) (D : C -> vec K R) (V : C -> vec K C).
  Hypothesis HB : NoDup B.
  Hypothesis HV : triangular B V.
  Let M : C -> vec K R := fun j => lincomb B (V j) D.
  Hypothesis HR : reduced phi B M.
  Hypothesis Hdich : dich phi M B.

  Lemma chain_in_basis x j : ends_at B x j ->
    exists y, (forall r, lincomb B x D r = lincomb B y M r) /\ y j <> f0 /\
      exists B1 B2, B = B1 ++ j :: B2 /\ forall b, In b B2 -> y b = f0.
  Proof.
    intros (B1 & B2 & E & Hj & Hz).
    destruct (@triangular_solve K C V B2 (B1 ++ [j]) x) as (y & Hy1 & Hy2 & Hy3).
    - rewrite <- app_assoc. simpl. now rewrite <- E.
    - intros k Hk. rewrite <- app_assoc. simpl. rewrite <- E. apply HV. rewrite E.
      apply in_app_iff in Hk. apply in_app_iff. simpl in *. tauto.
    - assert (Hnd : NoDup ((B1 ++ [j]) ++ B2)) by (rewrite <- app_assoc; simpl; now rewrite <- E).
      assert (Hdisj : forall b, In b B2 -> ~ In b (B1 ++ [j])).
      { intros b Hb Hb'. clear -Hnd Hb Hb'. induction (B1 ++ [j]) as [|a l IHl]; [destruct Hb'|].
        simpl in *. inversion Hnd; subst. destruct Hb' as [->|Hb'].
        - apply H1, in_app_iff; auto. - auto. }
      exists (fun b => if set_mem b B2 then f0 else y b).
      assert (Ey : forall b, In b (B1 ++ [j]) -> (if set_mem b B2 then f0 else y b) = y b).
      { intros b Hb. destruct (set_mem b B2) eqn:Em; auto. apply set_mem_iff in Em.
        exfalso. eapply Hdisj; eauto. }
      split; [|split].
      + intros r. unfold M. rewrite lincomb_assoc.
        apply lincomb_ext; auto. intros b Hb.
        assert (Es : forall b, lincomb B (fun b => if set_mem b B2 then f0 else y b) V b
                       = lincomb (B1 ++ [j]) y V b).
        { intros b'. rewrite E. replace (B1 ++ j :: B2) with ((B1 ++ [j]) ++ B2)
            by (rewrite <- app_assoc; reflexivity).
          rewrite lincomb_app. rewrite (@lincomb_0 _ _ _ B2).
          - rewrite fadd_0_r. apply lincomb_ext; auto.
          - intros a Ha. left. apply set_mem_iff in Ha. now rewrite Ha. }
        rewrite Es. rewrite E in Hb. replace (B1 ++ j :: B2) with ((B1 ++ [j]) ++ B2) in Hb
            by (rewrite <- app_assoc; reflexivity).
        apply in_app_iff in Hb. destruct Hb as [Hb|Hb].
        * symmetry. auto.
        * rewrite Hy2 by auto. auto.
      + rewrite Ey by (apply in_app_iff; simpl; auto). eapply Hy3; eauto.
      + exists B1, B2. split; auto. intros b Hb. apply set_mem_iff in Hb. now rewrite Hb.
  Qed.

  Theorem intrinsic_pair i j : In j B -> (leading phi (M j) i <-> is_pair phi B D i j).
  Proof.
    intros Hj.
    assert (Hmain : forall i, leading phi (M j) i -> is_pair phi B D i j).
    { clear i. intros i Hl. 
      assert (Hb : forall x, ends_at B x j -> exists i', leading phi (lincomb B x D) i' /\ row_le phi i i').
      { intros x Hx. destruct (chain_in_basis Hx) as (y & Hy & Hyj & _).
        destruct (reduced_comb y HB Hdich HR) as [[Hz Hall]|(i' & k & Hk & Hyk & Hlk & Hly & Hmax)].
        - exfalso. destruct (Hall j Hj) as [?|Hzj]; [congruence|]. eapply leading_not_zero; eauto.
        - exists i'. split; [|eauto]. eapply leading_ext; [|exact Hly]. auto. }
      split; [|split].
      - intros x Hx Hz. destruct (Hb x Hx) as (i' & Hl' & _). eapply leading_not_zero; eauto.
      - exists (V j). split; auto.
      - intros x i' Hx Hl'. destruct (Hb x Hx) as (i'' & Hl'' & Hle).
        rewrite (leading_unique Hl' Hl''). exact Hle. }
    split; [apply Hmain|].
    intros Hp. destruct (Hdich j Hj) as [Hz|[i0 Hl0]].
    - exfalso. destruct Hp as (H1 & _). apply (H1 (V j)); auto.
    - destruct (Hmain _ Hl0) as (_ & (x & Hx & Hlx) & Hmin0).
      destruct Hp as (_ & (x' & Hx' & Hlx') & Hmin).
      assert (i = i0).
      { apply (row_le_antisym (phi:=phi)); [apply (Hmin x); auto|apply (Hmin0 x'); auto]. }
      now subst.
  Qed.

  Theorem intrinsic_positive j : In j B -> (vzero (M j) <-> is_positive B D j).
  Proof.
    intros Hj. split.
    - intros Hz. exists (V j). split; auto.
    - intros (x & Hx & Hz). destruct (Hdich j Hj) as [?|[i Hl]]; auto. exfalso.
      apply intrinsic_pair in Hl; auto. destruct Hl as (H1 & _). eapply H1; eauto.
  Qed.
End Intrinsic.
