(** Property theorems C72: the bars of dimension 0 count connected components. *)
From Verif Require Import Base Fields FieldsFacts Spec LinAlg Columns ColumnsFacts Matrices Reduction Rips SpecRips RipsCode RipsFacts RipsBasis RipsComplex PropRips RipsCohomology PropRipsCohomology SpecPH Persistence BettiUnique BettiMaps RipsPersistence PropRipsPersistence PropRipsCli.
From Coq Require Import Ring Field Sorted Lia.
Set Implicit Arguments.

(** ** Specification: points joined by steps of length at most [t], and labellings of the components *)
Inductive joined {F : ordT} (z : F) (d : list (list F)) (t : F) : nat -> nat -> Prop :=
| joined_refl i : joined z d t i i
| joined_step i j k : joined z d t i j -> j < length d -> k < length d -> ole (dist z d j k) t -> joined z d t i k.
(** [label] gives two points the same label exactly when they are in the same component *)
Definition labels_components {F : ordT} (z : F) (d : list (list F)) (t : F) (label : nat -> nat) : Prop :=
  forall i j, i < length d -> j < length d -> (label i = label j <-> joined z d t i j).
(** the number of different labels *)
Definition number_of_labels (label : nat -> nat) (n : nat) : nat := length (nodup Nat.eq_dec (map label (seq 0 n))).

(** ** Boundaries form a subspace *)
Section Sub.
  Context {K : coeffT} {F C : ordT} (phi : C -> F) (g : C -> Z) (e : Z) (l : list C) (D : C -> vec K C) (n : Z) (t : F).
  Add Field KFs : (F_field K).
  Lemma bnd_zero : boundary_at phi g e l D n t (fun _ => f0).
  Proof. exists (fun _ => f0). split; [intros c H; congruence|]. intros r. apply lincomb_0. auto. Qed.
  Lemma bnd_add u v : boundary_at phi g e l D n t u -> boundary_at phi g e l D n t v -> boundary_at phi g e l D n t (fun r => fadd (u r) (v r)).
  Proof.
    intros (w & H1 & H2) (w' & H3 & H4). exists (fun c => fadd (w c) (w' c)). split.
    - intros c Hc. destruct (fscalar_dec (w c)) as [E|Hn]; [|now apply H1]. apply H3. intros E'. apply Hc. rewrite E, E'. ring.
    - intros r. unfold bdry in *. rewrite lincomb_add, H2, H4. reflexivity.
  Qed.
  Lemma bnd_scale a u : boundary_at phi g e l D n t u -> boundary_at phi g e l D n t (fun r => fmul a (u r)).
  Proof.
    intros (w & H1 & H2). exists (fun c => fmul a (w c)). split.
    - intros c Hc. apply H1. intros E. apply Hc. rewrite E. ring.
    - intros r. unfold bdry in *. rewrite lincomb_scale, H2. reflexivity.
  Qed.
  Lemma bnd_comb {B : ordT} (bs : list B) (x : vec K B) M : (forall b, In b bs -> boundary_at phi g e l D n t (M b)) -> boundary_at phi g e l D n t (lincomb bs x M).
  Proof.
    induction bs as [|b bs IH]; intros H.
    - apply bnd_zero.
    - apply (@boundary_ext K F C phi g e l D n t (fun r => fadd (fmul (x b) (M b r)) (lincomb bs x M r))); [reflexivity|].
      apply (@bnd_add (fun r => fmul (x b) (M b r)) (lincomb bs x M)); [apply bnd_scale, H; now left|apply IH; intros; apply H; now right].
  Qed.
End Sub.

Section Sub2.
  Context {K : coeffT} {C R : ordT}.
  Add Field KFs2 : (F_field K).
  Lemma lincomb_sub2 (B : list C) (x : vec K C) (M M' : C -> vec K R) r :
    lincomb B x (fun c r => fsub (M c r) (M' c r)) r = fsub (lincomb B x M r) (lincomb B x M' r).
  Proof.
    unfold lincomb. transitivity (vsum B (fun c => fadd (fmul (x c) (M c r)) (fmul (fopp f1) (fmul (x c) (M' c r))))).
    - apply vsum_ext. intros c _. ring.
    - rewrite vsum_add, vsum_mul_l. ring.
  Qed.
End Sub2.
Section Components.
  Context {K : coeffT} {F : ordT} (z : F) (d : list (list F)).
  Notation n := (length d).
  Hypothesis Hd : distance_matrix z d.
  Variables (phi : N_ord -> F) (D : N_ord -> vec K N_ord) (dim : N_ord -> Z) (k : nat) (l : list N_ord).
  Hypothesis Hphi : rips_filtration z d phi.
  Hypothesis HD : rips_boundary_matrix n D.
  Hypothesis Hdim : simplex_dim n dim.
  Hypothesis Hk : 2 <= k.
  Hypothesis Hl : lists_simplices n k l.
  Variables (s t : F).
  Hypothesis Hs : ole z s.
  Add Field KFc : (F_field K).

  Lemma vertex v : v < n -> simplex n [v].
  Proof. intros. split; [discriminate|]. split; repeat constructor; auto. Qed.
  Lemma edge i j : i < j -> j < n -> simplex n [i; j].
  Proof. intros. split; [discriminate|]. split; repeat constructor; auto; lia. Qed.
  Definition e_ (v : nat) : vec K N_ord := fun c => if oeqb (code n [v] : N_ord) c then f1 else f0.
  Lemma e_nz v c : e_ v c <> f0 -> c = code n [v].
  Proof. unfold e_. destruct (oeqb_spec (code n [v] : N_ord) c); congruence. Qed.
  Lemma code1_inj v w : v < n -> w < n -> code n [v] = code n [w] -> v = w.
  Proof. intros Hv Hw E. apply code_inj in E; [congruence|repeat constructor; auto|repeat constructor; auto]. Qed.
  Lemma phi_vertex v : v < n -> phi (code n [v]) = z.
  Proof.
    intros Hv. destruct (Hphi (vertex Hv)) as [(i & j & Hi & Hj & E) _]. destruct Hi as [<-|[]]. destruct Hj as [<-|[]]. destruct Hd as (_ & _ & H & _). rewrite <- E. now apply H.
  Qed.
  Lemma phi_edge i j : i < j -> j < n -> phi (code n [i; j]) = dist z d i j.
  Proof.
    intros Hi Hj. destruct Hd as (_ & Hsym & Hz & Hpos).
    eapply diameter_unique; [exact (Hphi (edge Hi Hj))|].
    split; [exists i, j; cbn; auto|]. intros a b [<-|[<-|[]]] [<-|[<-|[]]]; rewrite ?Hz by lia; try apply Hpos; try apply ole_refl; try lia. rewrite Hsym by lia. apply ole_refl.
  Qed.
  Lemma l_in c : In c l <-> exists s0, simplex n s0 /\ length s0 <= k /\ c = code n s0.
  Proof. apply (proj2 Hl). Qed.
  Lemma D_vertex v r : v < n -> D (code n [v]) r = f0.
  Proof.
    intros Hv. destruct (fscalar_dec (D (code n [v]) r)) as [|Hn]; auto. exfalso. apply (proj2 HD _ _ (vertex Hv)) in Hn. destruct Hn as (u & i & Hu & (l1 & x & l2 & E & -> & _) & _).
    destruct l1 as [|a [|b l1]]; cbn in E; try discriminate. injection E as <- <-. destruct Hu as [Hu _]. now apply Hu.
  Qed.
  Lemma D_edge i j r : i < j -> j < n -> D (code n [i; j]) r = fsub (e_ j r) (e_ i r).
  Proof.
    intros Hij Hj. pose proof (edge Hij Hj) as He.
    assert (F0 : facet [i; j] 0 [j]) by (exists [], i, [j]; auto). assert (F1 : facet [i; j] 1 [i]) by (exists [i], j, []; auto).
    destruct (oeqb_spec (code n [j] : N_ord) r) as [<-|Nj].
    - rewrite (proj1 HD _ _ _ (vertex Hj) He F0). unfold e_. rewrite oeqb_refl. destruct (oeqb_spec (code n [i] : N_ord) (code n [j])) as [E|_]; [apply code1_inj in E; lia|]. unfold sign; cbn; ring.
    - destruct (oeqb_spec (code n [i] : N_ord) r) as [<-|Ni].
      + assert (Hi : i < n) by lia. rewrite (proj1 HD _ _ _ (vertex Hi) He F1). unfold e_. rewrite oeqb_refl. destruct (oeqb_spec (code n [j] : N_ord) (code n [i])) as [E|_]; [apply code1_inj in E; lia|]. unfold sign; cbn; ring.
      + unfold e_. destruct (oeqb_spec (code n [j] : N_ord) r) as [?|_]; [congruence|]. destruct (oeqb_spec (code n [i] : N_ord) r) as [?|_]; [congruence|].
        destruct (fscalar_dec (D (code n [i; j]) r)) as [E|Hn]; [rewrite E; ring|]. exfalso. apply (proj2 HD _ _ He) in Hn. destruct Hn as (u & x & Hu & (l1 & y & l2 & E & -> & _) & ->).
        destruct l1 as [|a [|b l1]]; cbn in E.
        * injection E as <- <-. now apply Nj.
        * injection E as <- <- <-. now apply Ni.
        * injection E as _ _ E. destruct l1; discriminate.
  Qed.
  (** *** boundaries *)
  Notation bnd := (boundary_at phi dim (-1) l D 0 t).
  Lemma edge_bnd i j : i < j -> j < n -> ole (dist z d i j) t -> bnd (fun r => fsub (e_ j r) (e_ i r)).
  Proof.
    intros Hij Hj Ht. assert (He := edge Hij Hj). assert (Hin : In (code n [i; j] : N_ord) l) by (apply l_in; exists [i; j]; split; auto).
    exists (fun c => if oeqb (code n [i; j] : N_ord) c then f1 else f0). split.
    - intros c. destruct (oeqb_spec (code n [i; j] : N_ord) c) as [<-|]; [|congruence]. intros _. split; auto. split; [rewrite Hdim by auto; reflexivity|]. now rewrite phi_edge.
    - intros r. unfold bdry. rewrite lincomb_unit; [now apply D_edge|apply Hl|auto].
  Qed.
  Lemma step_bnd i j : i < n -> j < n -> ole (dist z d i j) t -> bnd (fun r => fsub (e_ j r) (e_ i r)).
  Proof.
    intros Hi Hj Ht. destruct (lt_eq_lt_dec i j) as [[H|H]|H].
    - now apply edge_bnd.
    - subst j. eapply boundary_ext; [|apply bnd_zero]. intros r. cbv beta. ring.
    - assert (Ht' : ole (dist z d j i) t) by (destruct Hd as (_ & Hsym & _); rewrite Hsym; auto).
      eapply boundary_ext; [|apply (bnd_scale (fopp f1) (edge_bnd H Hi Ht'))]. intros r. cbv beta. ring.
  Qed.
  Lemma joined_bnd i j : joined z d t i j -> i < n -> bnd (fun r => fsub (e_ j r) (e_ i r)).
  Proof.
    intros H Hi. induction H as [i|i j m H IH Hj Hm Ht].
    - eapply boundary_ext; [|apply bnd_zero]. intros r. cbv beta. ring.
    - eapply boundary_ext; [|apply (bnd_add (IH Hi) (step_bnd Hj Hm Ht))]. intros r. cbv beta. ring.
  Qed.
  (** *** the classes of one vertex per component *)
  Variable label : nat -> nat.
  Hypothesis Hlab : labels_components z d t label.
  Definition bars : list nat_ord := nodup Nat.eq_dec (map label (seq 0 n)).
  Definition rep (b : nat) : nat := match find (fun v => label v =? b) (seq 0 n) with Some v => v | None => 0 end.
  Definition ZZ (b : nat_ord) : vec K N_ord := e_ (rep b).
  Lemma bars_in b : In b bars <-> exists v, v < n /\ label v = b.
  Proof.
    unfold bars. rewrite nodup_In, in_map_iff. split; intros (v & A & B); exists v.
    - apply in_seq in B. split; auto. lia.
    - split; auto. apply in_seq. lia.
  Qed.
  Lemma rep_ok b : In b bars -> rep b < n /\ label (rep b) = b.
  Proof.
    intros Hb. apply bars_in in Hb. destruct Hb as (v & Hv & E). unfold rep. destruct (find (fun v => label v =? b) (seq 0 n)) as [w|] eqn:Ef.
    - apply find_some in Ef. destruct Ef as [Hw E']. apply in_seq in Hw. apply Nat.eqb_eq in E'. split; auto. lia.
    - exfalso. assert (H : (label v =? b) = false) by (apply (find_none _ _ Ef v); apply in_seq; lia). apply Nat.eqb_neq in H. auto.
  Qed.
  (** total weight of a chain on each component *)
  Definition weight (x : vec K N_ord) : vec K nat_ord := lincomb (seq 0 n : list nat_ord) (fun v => x (code n [v])) (fun v b => if oeqb (label v : nat_ord) b then f1 else f0).
  Lemma weight_e v b : v < n -> weight (e_ v) b = if oeqb (label v : nat_ord) b then f1 else f0.
  Proof.
    intros Hv. unfold weight. rewrite <- (@lincomb_unit K nat_ord nat_ord (seq 0 n : list nat_ord) (fun v b => if oeqb (label v : nat_ord) b then f1 else f0 : option K) (v : nat_ord) b).
    - apply lincomb_ext; auto. intros w Hw. apply in_seq in Hw. unfold e_. destruct (oeqb_spec (code n [v] : N_ord) (code n [w])) as [E|Hn]; destruct (oeqb_spec (v : nat_ord) w) as [E'|Hn']; auto.
      + apply code1_inj in E; auto; [contradiction|lia].
      + exfalso. apply Hn. now rewrite E'.
    - apply seq_NoDup.
    - apply in_seq. lia.
  Qed.
  Lemma weight_sub u v b : weight (fun r => fsub (u r) (v r)) b = fsub (weight u b) (weight v b).
  Proof.
    unfold weight. transitivity (lincomb (seq 0 n : list nat_ord) (fun w => fadd (u (code n [w])) (fmul (fopp f1) (v (code n [w])))) (fun v b => if oeqb (label v : nat_ord) b then f1 else f0) b).
    - apply lincomb_ext; auto. intros w _. ring.
    - rewrite lincomb_add, lincomb_scale. ring.
  Qed.
  Lemma weight_comb {B : ordT} (bs : list B) (x : vec K B) M b : weight (lincomb bs x M) b = lincomb bs x (fun c => weight (M c)) b.
  Proof. unfold weight. symmetry. apply (lincomb_assoc bs (seq 0 n : list nat_ord) x (fun j v => M j (code n [v])) (fun v b => if oeqb (label v : nat_ord) b then f1 else f0) b). Qed.
  Lemma weight_bnd u b : bnd u -> weight u b = f0.
  Proof.
    intros (w & Hw & E). transitivity (weight (lincomb l w D) b).
    - unfold weight. apply lincomb_ext; auto. intros v _. symmetry. apply E.
    - rewrite weight_comb. apply lincomb_0. intros c Hc. destruct (fscalar_dec (w c)) as [|Hn]; auto. right. destruct (Hw c Hn) as (_ & Hg & Ht).
      apply l_in in Hc. destruct Hc as (u0 & Hu & Hlu & ->). rewrite Hdim in Hg by auto.
      destruct u0 as [|i [|j [|]]]; cbn [length] in Hg; try lia. destruct Hu as (_ & Hso & Hb). inversion Hso as [|? ? _ Hlt]; subst. inversion Hlt; subst. inversion Hb as [|? ? Hi Hb']; subst. inversion Hb'; subst.
      rewrite phi_edge in Ht by auto. transitivity (weight (fun r => fsub (e_ j r) (e_ i r)) b).
      + unfold weight. apply lincomb_ext; auto. intros v _. now apply D_edge.
      + rewrite weight_sub, !weight_e by auto. assert (El : label i = label j) by (apply Hlab; auto; apply (@joined_step F z d t i i j); auto; apply joined_refl). rewrite El. ring.
  Qed.
  Theorem components_betti : persistent_betti phi dim (-1) l D 0 s t (number_of_labels label n).
  Proof.
    exists nat_ord, bars, ZZ. split; [|reflexivity]. split; [apply NoDup_nodup|]. split; [|split].
    - intros b Hb. destruct (rep_ok b Hb) as [Hr _]. split.
      + intros c Hc. apply e_nz in Hc. subst c. split; [apply l_in; exists [rep b]; split; [now apply vertex|cbn; split; auto; lia]|]. split; [rewrite Hdim by (now apply vertex); reflexivity|]. now rewrite phi_vertex.
      + intros r. apply lincomb_0. intros c _. destruct (fscalar_dec (ZZ b c)) as [|Hn]; auto. right. apply e_nz in Hn. subst c. now apply D_vertex.
    - intros u [Hu _]. exists (weight u). eapply boundary_ext; [|apply (@bnd_comb K F N_ord phi dim (-1) l D 0%Z t nat_ord (seq 0 n) (fun v => u (code n [v])) (fun v r => fsub (e_ v r) (e_ (rep (label v)) r)))].
      + intros r. cbv beta. transitivity (fsub (lincomb (seq 0 n : list nat_ord) (fun v => u (code n [v])) e_ r) (lincomb (seq 0 n : list nat_ord) (fun v => u (code n [v])) (fun v => ZZ (label v)) r)).
        { apply (lincomb_sub2 (seq 0 n : list nat_ord) (fun v => u (code n [v])) e_ (fun v => ZZ (label v)) r). }
        f_equal.
        * destruct (fscalar_dec (u r)) as [E|Hn].
          { rewrite E. apply lincomb_0. intros v _. destruct (fscalar_dec (e_ v r)) as [|Hn]; auto. left. apply e_nz in Hn. subst r. exact E. }
          destruct (Hu r Hn) as (Hr & Hg & _). apply l_in in Hr. destruct Hr as (u0 & Hu0 & _ & ->). rewrite Hdim in Hg by auto.
          destruct u0 as [|v [|]]; cbn [length] in Hg; try lia. destruct Hu0 as (_ & _ & Hb). inversion Hb; subst.
          unfold lincomb. rewrite (vsum_single _ (a:=v)); [unfold e_; rewrite oeqb_refl; destruct (F_ring K); rewrite Rmul_comm; apply Rmul_1_l|apply seq_NoDup|apply in_seq; lia|].
          intros w Hw Hne. apply in_seq in Hw. unfold e_. destruct (oeqb_spec (code n [w] : N_ord) (code n [v])) as [E|_]; [apply code1_inj in E; auto; [contradiction|lia]|ring].
        * unfold weight. rewrite <- (lincomb_assoc (seq 0 n : list nat_ord) bars). apply lincomb_ext; auto. intros v Hv. apply in_seq in Hv. symmetry. apply lincomb_unit; [apply NoDup_nodup|]. apply bars_in. exists v. split; auto. lia.
      + intros v Hv. apply in_seq in Hv. assert (Hb : In (label v) bars) by (apply bars_in; exists v; split; auto; lia). destruct (rep_ok _ Hb) as [Hr Er]. apply joined_bnd; [|auto]. apply Hlab; auto. lia.
    - intros a Ha b Hb. apply (weight_bnd b) in Ha. rewrite weight_comb in Ha. rewrite <- Ha.
      transitivity (lincomb bars (fun c => if oeqb b c then f1 else f0) (fun c _ => a c) b); [symmetry; apply lincomb_unit; auto; apply NoDup_nodup|].
      unfold lincomb. apply vsum_ext. intros c Hc. destruct (rep_ok _ Hc) as [Hr Er]. unfold ZZ. rewrite weight_e by auto. rewrite Er. destruct (oeqb_spec b c) as [->|Hne]; [rewrite oeqb_refl; ring|]. destruct (oeqb_spec c b); [congruence|ring].
  Qed.
End Components.

(** ** Components can always be labelled *)
Inductive linked (E : list (nat * nat)) : nat -> nat -> Prop :=
| linked_refl i : linked E i i
| linked_step i j k : linked E i j -> In (j, k) E \/ In (k, j) E -> linked E i k.
Lemma linked_trans E i j k : linked E i j -> linked E j k -> linked E i k.
Proof. intros H1 H2. induction H2 as [|j l k H IH He]; auto. eapply linked_step; [apply IH; auto|exact He]. Qed.
Lemma linked_sym E i j : linked E i j -> linked E j i.
Proof.
  induction 1 as [|i j k H IH He]; [constructor|]. eapply linked_trans; [|exact IH]. eapply linked_step; [constructor|]. tauto.
Qed.
Lemma linked_mono E E' i j : incl E E' -> linked E i j -> linked E' i j.
Proof. intros Hi. induction 1 as [|i j k H IH He]; [constructor|]. eapply linked_step; [exact IH|]. destruct He; [left|right]; auto. Qed.
Lemma labels_linked E : exists label : nat -> nat, forall i j, label i = label j <-> linked E i j.
Proof.
  induction E as [|[a b] E (f & Hf)].
  - exists (fun v => v). intros i j. split; [intros ->; constructor|]. induction 1 as [|i j k H IH [[]|[]]]; auto.
  - exists (fun v => if f v =? f a then f b else f v).
    assert (Hab : linked ((a, b) :: E) a b) by (eapply linked_step; [constructor|left; now left]).
    assert (Hm : forall i j, f i = f j -> linked ((a, b) :: E) i j) by (intros i j H; apply (@linked_mono E); [now right|now apply Hf]).
    intros i j. split.
    + destruct (Nat.eqb_spec (f i) (f a)) as [Ei|Ei]; destruct (Nat.eqb_spec (f j) (f a)) as [Ej|Ej]; intros H.
      * apply Hm. congruence.
      * eapply linked_trans; [apply Hm, Ei|]. eapply linked_trans; [exact Hab|]. now apply Hm.
      * eapply linked_trans; [apply Hm, H|]. apply linked_sym. eapply linked_trans; [apply Hm, Ej|exact Hab].
      * now apply Hm.
    + induction 1 as [|i j k H IH He]; auto. rewrite IH. clear IH H.
      assert (Hstep : forall x y, In (x, y) ((a, b) :: E) -> (if f x =? f a then f b else f x) = (if f y =? f a then f b else f y)).
      { intros x y [Exy|Hxy].
        - injection Exy as <- <-. rewrite Nat.eqb_refl. destruct (Nat.eqb_spec (f b) (f a)); congruence.
        - assert (Ef : f x = f y) by (apply Hf; eapply linked_step; [constructor|left; exact Hxy]). now rewrite Ef. }
      destruct He as [He|He]; [auto|symmetry; auto].
Qed.
Theorem labels_exist {F : ordT} (z : F) (d : list (list F)) t : distance_matrix z d -> exists label, labels_components z d t label.
Proof.
  intros (_ & Hsym & _). set (E := filter (fun p => oleb (dist z d (fst p) (snd p)) t) (list_prod (seq 0 (length d)) (seq 0 (length d)))).
  destruct (labels_linked E) as (f & Hf). exists f. intros i j Hi Hj. rewrite Hf.
  assert (HE : forall x y, In (x, y) E <-> x < length d /\ y < length d /\ ole (dist z d x y) t).
  { intros x y. unfold E. rewrite filter_In, in_prod_iff, !in_seq. cbn [fst snd]. destruct (oleb_spec (dist z d x y) t); (split; [intros [A B]|intros (A & B & C)]); try discriminate; try contradiction; repeat split; auto; lia. }
  split; intros H.
  - induction H as [i|i j k H IH He]; [constructor|].
    assert (Hjk : j < length d /\ k < length d /\ ole (dist z d j k) t).
    { destruct He as [He|He].
      - exact (proj1 (HE _ _) He).
      - destruct (proj1 (HE _ _) He) as (A & B & C). split; auto. split; auto. rewrite Hsym; auto. }
    eapply joined_step; [apply IH; tauto| | |]; tauto.
  - induction H as [i|i j k H IH Hb Hc Hd]; [constructor|]. eapply linked_step; [apply IH; auto|]. left. apply HE. auto.
Qed.

(** ** C72 *)
Theorem C72_components :
  forall (HI : heaps) (K : coeffT) (F : ordT) (uw : N) (z : F) (d : list (list F)) (max_dim : nat),
  1 <= length d -> distance_matrix z d -> 1 <= max_dim -> codes_fit uw (length d) (max_dim + 2) ->
  forall (L : list N) (fuel : nat), covers_simplices (length d) (max_dim + 2) L -> length L < fuel ->
  exists rc dg, rips_cohomology HI (K:=K) fuel uw z d max_dim = Ok (rc, dg) /\
    forall (phi : N_ord -> F) (dim : N_ord -> Z), rips_filtration z d phi -> simplex_dim (length d) dim ->
    forall (t : F) (label : nat -> nat), ole z t -> labels_components z d t label ->
      number_of_labels label (length d) =
      1 + length (filter (fun p : rN * rN => (dim (unrev (snd p)) =? 0)%Z && oltb t (phi (unrev (fst p)))) (pairings dg)).
Proof.
  intros HI K F uw z d m Hn Hd Hm Hfit L fuel HL Hfuel.
  destruct (@C54_rips_bars_count HI K F uw z d m (distance_rips Hd) Hm Hfit L fuel HL Hfuel) as (rc & dg & Erun & H).
  destruct (@C44_diagram_shape HI K F uw z d m (distance_rips Hd) Hm Hfit L fuel HL Hfuel) as (rc' & dg' & E' & S1 & S2 & S3 & S4).
  rewrite Erun in E'. injection E' as <- <-.
  exists rc, dg. split; auto. intros phi dim Hphi Hdim t label Ht Hlab. cbv zeta in H.
  destruct (@spec_exists K F z d (distance_rips Hd)) as (_ & HD & _ & Hl). set (k := length d + m + 2). specialize (Hl k ltac:(lia)).
  pose proof (@components_betti K F z d Hd phi _ dim k _ Hphi HD Hdim ltac:(lia) Hl t t Ht label Hlab) as HB.
  apply (H phi _ dim k _ Hphi HD Hdim ltac:(lia) Hl) in HB; [|lia]. rewrite HB. unfold alive. rewrite app_length, S4. destruct (Nat.eqb_spec (length d) 0) as [|_]; [lia|].
  assert (H0 : simplex (length d) [0]) by now apply vertex.
  cbn [map filter unrev]. rewrite (Hdim _ H0), (@phi_vertex F z d Hd phi Hphi 0) by lia. cbn [length]. destruct (oleb_spec z t) as [_|Hx]; [|contradiction]. cbn [Z.of_nat Pos.of_succ_nat Z.sub Z.add Z.opp Z.pos_sub Z.eqb andb length Nat.add]. f_equal.
  rewrite map_length. clear - S1 Hphi Hdim Ht Hd. induction (pairings dg) as [|[i j] ps IH]; auto. cbn [map filter fst snd].
  assert (IH' := IH ltac:(intros; apply S1; now right)). clear IH.
  destruct (S1 i j (or_introl eq_refl)) as (s & u & fs & fu & Hs & Hu & Hls & Hlu & -> & -> & _). cbn [unrev].
  rewrite (Hdim _ Hs). destruct (Z.eqb_spec (Z.of_nat (length s) - 1) 0) as [E|_]; [|exact IH'].
  assert (Ev : exists v, s = [v] /\ v < length d). { destruct s as [|v [|]]; cbn [length] in E; try lia. exists v. split; auto. destruct Hs as (_ & _ & Hb). now inversion Hb. }
  destruct Ev as (v & -> & Hv). rewrite (@phi_vertex F z d Hd phi Hphi v) by auto. destruct (oleb_spec z t) as [_|Hx]; [|contradiction]. cbn [andb].
  destruct (oltb t (phi (code (length d) u))); cbn [length]; auto.
Qed.
Print Assumptions C72_components.

(** Four points on a line at 0, 1, 3, 7: at time 2 the points 0, 1, 3 are joined and 7 is apart, so exactly one bar of
    dimension 0 besides the essential one is alive. *)
Example C72_ex : labels_components (0 : nat_ord) line4 2 (fun v => if v <? 3 then 0 else 1) /\ number_of_labels (fun v => if v <? 3 then 0 else 1) 4 = 2 /\
  distance_matrix (0 : nat_ord) line4 /\ codes_fit (2 ^ 64) (length line4) (2 + 2) /\ covers_simplices (length line4) (2 + 2) (map N.of_nat (seq 0 625)).
Proof.
  destruct C44_ex_hyps as (_ & H2 & H3). pose proof line4_distance as H1. split; [|split; [reflexivity|auto]].
  assert (Hle : forall x y : nat, @ole nat_ord x y <-> x <= y) by (intros x y; unfold ole; cbn [cmp nat_ord]; apply Nat.compare_le_iff).
  intros i j Hi Hj. cbn [length line4] in Hi, Hj. split.
  - intros H. assert (S01 : joined (0 : nat_ord) line4 2 0 1) by (eapply joined_step; [constructor|cbn; lia|cbn; lia|apply Hle; cbn; lia]).
    assert (S10 : joined (0 : nat_ord) line4 2 1 0) by (eapply joined_step; [constructor|cbn; lia|cbn; lia|apply Hle; cbn; lia]).
    assert (S12 : joined (0 : nat_ord) line4 2 1 2) by (eapply joined_step; [constructor|cbn; lia|cbn; lia|apply Hle; cbn; lia]).
    assert (S21 : joined (0 : nat_ord) line4 2 2 1) by (eapply joined_step; [constructor|cbn; lia|cbn; lia|apply Hle; cbn; lia]).
    assert (S02 : joined (0 : nat_ord) line4 2 0 2) by (eapply joined_step; [exact S01|cbn; lia|cbn; lia|apply Hle; cbn; lia]).
    assert (S20 : joined (0 : nat_ord) line4 2 2 0) by (eapply joined_step; [exact S21|cbn; lia|cbn; lia|apply Hle; cbn; lia]).
    destruct i as [|[|[|[|i]]]]; destruct j as [|[|[|[|j]]]]; try lia; auto; try constructor; cbn in H; discriminate.
  - induction 1 as [|i j k H IH H4 H5 H6]; auto. rewrite IH by auto. apply Hle in H6. cbn [length line4] in H4, H5.
    destruct j as [|[|[|[|j]]]]; destruct k as [|[|[|[|k]]]]; try lia; try reflexivity; cbn in H6; lia.
Qed.
