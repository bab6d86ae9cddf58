(** Property theorems C81-C82: the reductions with the arithmetic of the machine. *)
From Verif Require Import Base Fields FieldsFacts FieldsQ Spec LinAlg Columns ColumnsFacts Matrices SpecMat MatricesFacts Reduction PropFields PropStandard PropClearing Examples Machine MachineSim MachineRef.
From Coq Require Import QArith Qcanon Lia.
Set Implicit Arguments.
Local Open Scope nat_scope.

(** ** Heaps that do not look at coefficients exist *)
Lemma emap_cmp {F R : ordT} {X Y : Type} (f : X -> Y) (a b : entry F R X) : entry_cmp (emap f a) (emap f b) = entry_cmp a b.
Proof. reflexivity. Qed.
Lemma lh_max_map {F R : ordT} {X Y : Type} (f : X -> Y) (l : list (entry F R X)) :
  lh_max (@entry_cmp F R Y) (map (emap f) l) = option_map (fun p => (emap f (fst p), map (emap f) (snd p))) (lh_max (@entry_cmp F R X) l).
Proof.
  induction l as [|e l IH]; cbn [map lh_max option_map]; auto. rewrite IH. destruct (lh_max (@entry_cmp F R X) l) as [[y t]|]; cbn [option_map fst snd]; auto.
  rewrite emap_cmp. destruct (entry_cmp e y); reflexivity.
Qed.
Definition list_heaps_uniform : uniform list_heaps.
Proof.
  refine (@Uniform list_heaps (fun F R X Y f h => map (emap f) h) _ _ _ _); try reflexivity.
  intros F R X Y f h. exact (lh_max_map f h).
Defined.

(** ** Reading machine coefficients as elements of a field *)
Section Ideal.
  Context {A : mach} {K : coeffT} (f : A -> K).
  Definition tmap {R : Type} (l : list (A * R)) : list (K * R) := map (fun p => (f (fst p), snd p)) l.
  (** the matrix with the same entries, read in the field *)
  Definition ideal {C R F : ordT} (D : xmatrix A C R F) : fmatrix K C R F :=
    FMatrix (fun c => do l <- x_col D c; Ok (tmap l)) (x_fil D) (fun c => do es <- x_colf D c; Ok (map (emap f) es)).
  (** the columns of V, read in the field *)
  Definition vmap {C : ordT} (v : kmap C (list (A * C))) : kmap C (list (K * C)) := map (fun p => (fst p, tmap (snd p))) v.
  Definition rcmap {C : ordT} (v : kmap C (redcol A C)) : kmap C (redcol K C) :=
    map (fun p => (fst p, match snd p with Cleared j => Cleared j | Reduced l => Reduced (tmap l) end)) v.
End Ideal.
(** every coefficient that the matrix can yield satisfies [good] *)
Definition valid_entries {A : mach} {C R F : ordT} (good : A -> Prop) (D : xmatrix A C R F) : Prop :=
  (forall c l k r, x_col D c = Ok l -> In (k, r) l -> good k) /\ (forall c es e, x_colf D c = Ok es -> In e es -> good (e_coeff e)).
Definition valid_v {A C : Type} (good : A -> Prop) (v : list (C * list (A * C))) : Prop := forall c l k x, In (c, l) v -> In (k, x) l -> good k.
Definition valid_rc {A C : Type} (good : A -> Prop) (v : list (C * redcol A C)) : Prop := forall c l k x, In (c, Reduced l) v -> In (k, x) l -> good k.

Lemma rT_map {A B : mach} (good : A -> Prop) (f : A -> B) {R : Type} (l : list (A * R)) l' : Forall2 (rT A B good f) l l' ->
  l' = map (fun p => (f (fst p), snd p)) l /\ forall k r, In (k, r) l -> good k.
Proof.
  induction 1 as [|[k r] [k' r'] l l' [[Hk Ek] Hr] H IH]; cbn [map]; [split; [auto|intros ? ? []]|]. cbn [fst snd] in *. destruct IH as [-> IH]. subst. split; auto.
  intros x y [[= <- <-]|Hy]; eauto.
Qed.
Lemma rV_map {A B : mach} (good : A -> Prop) (f : A -> B) {C : ordT} (v : @x_vmap A C) (v' : @x_vmap B C) : rV good f v v' ->
  v' = map (fun p => (fst p, map (fun q => (f (fst q), snd q)) (snd p))) v /\ valid_v good v.
Proof.
  induction 1 as [|[c l] [c' l'] v v' [Hc Hl] H IH]; cbn [map]; [split; [auto|intros ? ? ? ? []]|]. cbn [fst snd] in *. subst c'. apply rT_map in Hl. destruct Hl as [-> Hl], IH as [-> IH].
  split; auto. intros x y k r [[= <- <-]|Hy] Hk; eauto.
Qed.
Lemma rR_map {A B : mach} (good : A -> Prop) (f : A -> B) {C : ordT} (v : @x_rc A C) (v' : @x_rc B C) : rR good f v v' ->
  v' = map (fun p => (fst p, match snd p with Cleared j => Cleared j | Reduced l => Reduced (map (fun q => (f (fst q), snd q)) l) end)) v /\ valid_rc good v.
Proof.
  induction 1 as [|[c l] [c' l'] v v' [Hc Hl] H IH]; cbn [map]; [split; [auto|intros ? ? ? ? []]|]. cbn [fst snd] in *. subst c'. destruct IH as [-> IH].
  destruct l as [j|l], l' as [j'|l']; cbn [rRC] in Hl; try contradiction.
  - subst j'. split; auto. intros x y k r [[=]|Hy] Hk; eauto.
  - apply rT_map in Hl. destruct Hl as [-> Hl]. split; auto. intros x y k r [[= <- <-]|Hy] Hk; eauto.
Qed.
Lemma forall2_self {X Y} (R : X -> Y -> Prop) (g : X -> Y) l : (forall x, In x l -> R x (g x)) -> Forall2 R l (map g l).
Proof. induction l; intros H; cbn [map]; constructor; [apply H; simpl; auto|apply IHl; intros; apply H; simpl; auto]. Qed.

(** ** C81: [Z3], ..., [Z13] *)
Section ZP.
  Variables (p : Z) (Hp : In p [3; 5; 7; 11; 13]%Z).
  Notation K := (ZP_coeff p Hp).
  Lemma zp_refines : refines (pure_mach K) (zp_mach p) (fun _ => True) (fun x : zp p => zval x).
  Proof.
    split; cbn.
    - split; auto. unfold zpt_one. apply zval_mk. pose proof (zp_prime_bound p Hp). unfold zp_ok, zp_one. lia.
    - intros a b o _ _ [= <-]. split; auto. apply (zpt_faithful p Hp a b).
    - intros a b c _ _ [= <-]. split; auto. apply (zpt_faithful p Hp a b).
    - intros a c _ [= <-]. split; auto. apply (zpt_faithful p Hp a a).
    - intros a c _ [= <-]. split; auto. apply (zpt_faithful p Hp a a).
    - intros. repeat split; discriminate.
  Qed.
  Notation good := (fun a : Z => (1 <= a < p)%Z).
  Notation rd := (zp_mk p Hp : zp_mach p -> K).
  Lemma zp_mat {C R F : ordT} (D : xmatrix (zp_mach p) C R F) : valid_entries (A:=zp_mach p) good D ->
    mat_sim (A:=pure_mach K) (B:=zp_mach p) (fun _ => True) (fun x : zp p => zval x) (xm (ideal rd D)) D.
  Proof.
    intros [H1 H2]. split; [|split; [reflexivity|]].
    - intros c. cbn [xm x_col ideal m_col]. destruct (x_col D c) as [l| |] eqn:E; cbn [bind simr]; auto. exists l. split; auto.
      assert (Hl : l = map (fun q : zp p * R => (zval (fst q), snd q)) (tmap rd l)).
      { unfold tmap. rewrite map_map. rewrite <- (map_id l) at 1. apply map_ext_in. intros [k r] Hk. cbn [fst snd]. f_equal. symmetry. apply zval_mk. eapply H1; eauto. }
      rewrite Hl at 2. apply forall2_self. intros [k r] _. repeat split.
    - intros c. cbn [xm x_colf ideal m_colf]. destruct (x_colf D c) as [l| |] eqn:E; cbn [bind simr]; auto. exists l. split; auto.
      assert (Hl : l = map (emap (fun x : zp p => zval x)) (map (emap rd) l)).
      { rewrite map_map. rewrite <- (map_id l) at 1. apply map_ext_in. intros e He. destruct e as [g r k]. unfold emap. cbn [e_fil e_row e_coeff]. f_equal. symmetry. apply zval_mk. exact (H2 _ _ _ E He). }
      rewrite Hl at 2. apply forall2_self. intros e _. split; auto.
  Qed.
  Lemma zp_rd_zval (k : zp p) : rd (zval k) = k.
  Proof. apply zp_eq. apply zval_mk. apply zval_ok. Qed.
  Lemma zp_rd_terms {R : Type} (l : list (K * R)) : tmap rd (map (fun q : zp p * R => (zval (fst q), snd q)) l) = l.
  Proof. unfold tmap. rewrite map_map. rewrite <- (map_id l) at 2. apply map_ext. intros [k x]. cbn [fst snd]. now rewrite zp_rd_zval. Qed.
  Lemma zp_good (k : zp p) : good (zval k).
  Proof. apply (zval_ok p k). Qed.
End ZP.

(** With the five prime fields, a reduction run on [u8] never panics in the arithmetic: it returns what the run over
    the ideal field returns, so its pairs are the persistence pairs of the matrix over the field with [p] elements. *)
Theorem C81_ZP_standard :
  forall (p : Z) (Hp : In p [3; 5; 7; 11; 13]%Z) (HI : heaps) (U : uniform HI) (C F : ordT) (phi : C -> F)
    (D : xmatrix (zp_mach p) C C F) (b : basis C) (l : list C),
  valid_entries (A:=zp_mach p) (fun a : Z => 1 <= a < p)%Z D ->
  let D0 := ideal (zp_mk p Hp : zp_mach p -> ZP_coeff p Hp) D in
  square_matrix phi D0 b l -> forall fuel, length (row_set (m_col D0) l) < fuel -> forall reverse_order,
  exists v dg,
    x_standard_algo_with_diagram HI fuel D b reverse_order = Ok (v, dg) /\ valid_v (fun a : Z => 1 <= a < p)%Z v /\
    standard_algo_with_diagram HI fuel D0 b reverse_order = Ok (vmap (zp_mk p Hp : zp_mach p -> ZP_coeff p Hp) v, dg) /\
    forall i j, In (i, j) (pairings dg) <-> In j l /\ is_pair phi l (mden (m_col D0)) i j.
Proof.
  intros p Hp HI U C F phi D b l Hv D0 Hsq fuel Hf ro.
  destruct (@C25_pairs_intrinsic HI _ _ _ phi D0 b l Hsq fuel Hf ro) as (v & dg & E & _ & Hpairs).
  pose proof (s_with_diagram (HI:=HI) U (@zp_refines p Hp) fuel b ro (@zp_mat p Hp _ _ _ _ Hv)) as S. rewrite pure_with_diagram in S. unfold D0 in E. rewrite E in S.
  destruct S as ([v' dg'] & E' & Hv' & Hdg). cbn [fst snd] in *. subst dg'. apply rV_map in Hv'. destruct Hv' as [-> _].
  eexists. exists dg. split; [exact E'|]. split; [|split; [|exact Hpairs]].
  - intros c l' k x Hin Hk. apply in_map_iff in Hin. destruct Hin as ([c' l2] & [= <- <-] & _). apply in_map_iff in Hk. destruct Hk as ([k2 x2] & [= <- <-] & _). apply zp_good.
  - unfold D0. rewrite E. f_equal. f_equal. unfold vmap. rewrite map_map. rewrite <- (map_id v) at 1. apply map_ext. intros [c l2]. cbn [fst snd]. f_equal. symmetry. exact (@zp_rd_terms p Hp _ l2).
Qed.
Print Assumptions C81_ZP_standard.

Theorem C81_ZP_clearing :
  forall (p : Z) (Hp : In p [3; 5; 7; 11; 13]%Z) (HI : heaps) (U : uniform HI) (C F : ordT) (phi : C -> F)
    (D : xmatrix (zp_mach p) C C F) (sb : split_basis C) (dims : list nat) (blocks : list (list C)),
  valid_entries (A:=zp_mach p) (fun a : Z => 1 <= a < p)%Z D ->
  let D0 := ideal (zp_mk p Hp : zp_mach p -> ZP_coeff p Hp) D in
  block_complex phi D0 sb dims blocks -> forall fuel, length (row_set (m_col D0) (concat blocks)) < fuel ->
  exists rc dg,
    x_build_with_diagram HI fuel D sb dims = Ok (rc, dg) /\ valid_rc (fun a : Z => 1 <= a < p)%Z rc /\
    build_with_diagram HI fuel D0 sb dims = Ok (rcmap (zp_mk p Hp : zp_mach p -> ZP_coeff p Hp) rc, dg) /\
    forall l', NoDup l' -> (forall c, In c l' <-> In c (concat blocks)) -> (forall blk x y, In blk blocks -> before blk x y -> before l' x y) ->
      (forall i j, In (i, j) (pairings dg) <-> In j l' /\ is_pair phi l' (mden (m_col D0)) i j) /\
      (forall c, In c (essential dg) <-> is_essential phi l' (mden (m_col D0)) c).
Proof.
  intros p Hp HI U C F phi D sb dims blocks Hv D0 HB fuel Hf.
  destruct (@C32_clearing_intrinsic HI _ _ _ phi D0 sb dims blocks HB fuel Hf) as (v & dg & E & _ & _ & Hpairs).
  pose proof (s_build_with_diagram (HI:=HI) U (@zp_refines p Hp) (@zp_mat p Hp _ _ _ _ Hv) fuel sb dims) as S. rewrite pure_build_with_diagram in S. unfold D0 in E. rewrite E in S.
  destruct S as ([v' dg'] & E' & Hv' & Hdg). cbn [fst snd] in *. subst dg'. apply rR_map in Hv'. destruct Hv' as [-> _].
  eexists. exists dg. split; [exact E'|]. split; [|split; [|exact Hpairs]].
  - intros c l' k x Hin Hk. apply in_map_iff in Hin. destruct Hin as ([c' [j|l2]] & [= <- <-] & _). apply in_map_iff in Hk. destruct Hk as ([k2 x2] & [= <- <-] & _). apply zp_good.
  - unfold D0. rewrite E. f_equal. f_equal. unfold rcmap. rewrite map_map. rewrite <- (map_id v) at 1. apply map_ext. intros [c [j|l2]]; cbn [fst snd]; auto. do 2 f_equal. symmetry. exact (@zp_rd_terms p Hp _ l2).
Qed.
Print Assumptions C81_ZP_clearing.

(* ------------------------------------------------------------------ *)
(** ** C82: [Q] *)
(** [Q] in a build with overflow checks, stopped also when an intermediate denominator reaches [2^63]
    (fields.rs 253-304; the extra stop is not in the code: it marks the inputs on which the casts to [isize] are wrong). *)
Definition q_checked : mach := @Mach mq
  (fun a b => if (Z.lcm (q_den a) (q_den b) <? 2 ^ 63)%Z then q_add Debug a b else Panic)
  (fun a b => if (q_den a * q_den b <? 2 ^ 63)%Z then q_mul Debug a b else Panic)
  q_one
  (q_neg Debug)
  (fun a => if (q_den a <? 2 ^ 63)%Z then q_inv Debug a else Panic).

Lemma bind_ok {X Y} (x : res X) (f : X -> res Y) r : bind x f = Ok r -> exists y, x = Ok y /\ f y = Ok r.
Proof. destruct x; cbn [bind]; intros H; try discriminate. eauto. Qed.
Lemma isize_prof z r pf : isize_op Debug z = Ok r -> isize_op pf z = Ok r.
Proof. unfold isize_op. destruct (in_isize z); [auto|discriminate]. Qed.
Lemma usize_prof z r pf : usize_op Debug z = Ok r -> usize_op pf z = Ok r.
Proof. unfold usize_op. destruct (in_usize z); [auto|discriminate]. Qed.
Lemma q_add_prof a b r pf : q_add Debug a b = Ok r -> q_add pf a b = Ok r.
Proof.
  unfold q_add. intros H. apply bind_ok in H. destruct H as (l & E & H).
  assert (El : usize_lcm pf (q_den a) (q_den b) = Ok l).
  { unfold usize_lcm in *. destruct (_ && _)%bool; auto. destruct (usize_div (q_den b) _); cbn [bind] in *; try discriminate. now apply usize_prof. }
  rewrite El. cbn [bind]. destruct (usize_div l (q_den a)); cbn [bind] in *; try discriminate. apply bind_ok in H. destruct H as (ta & E1 & H).
  rewrite (isize_prof _ pf E1). cbn [bind]. destruct (usize_div l (q_den b)); cbn [bind] in *; try discriminate. apply bind_ok in H. destruct H as (tb & E2 & H).
  rewrite (isize_prof _ pf E2). cbn [bind]. apply bind_ok in H. destruct H as (n & E3 & H). rewrite (isize_prof _ pf E3). cbn [bind]. exact H.
Qed.
Lemma q_mul_prof a b r pf : q_mul Debug a b = Ok r -> q_mul pf a b = Ok r.
Proof.
  unfold q_mul. intros H. apply bind_ok in H. destruct H as (n & E & H). rewrite (isize_prof _ pf E). cbn [bind].
  apply bind_ok in H. destruct H as (d & E2 & H). rewrite (usize_prof _ pf E2). exact H.
Qed.
Lemma q_neg_prof a r pf : q_neg Debug a = Ok r -> q_neg pf a = Ok r.
Proof. unfold q_neg. intros H. apply bind_ok in H. destruct H as (n & E & H). rewrite (isize_prof _ pf E). exact H. Qed.
Lemma q_inv_prof a r pf : q_inv Debug a = Ok r -> q_inv pf a = Ok r.
Proof. unfold q_inv. intros H. apply bind_ok in H. destruct H as (n & E & H). rewrite (isize_prof _ pf E). exact H. Qed.

Lemma bind_nofuel {X Y} (x : res X) (f : X -> res Y) : x <> NoFuel -> (forall y, f y <> NoFuel) -> bind x f <> NoFuel.
Proof. destruct x; cbn [bind]; auto; discriminate. Qed.
Lemma isize_op_nf pf z : isize_op pf z <> NoFuel.
Proof. unfold isize_op. destruct (in_isize z), pf; discriminate. Qed.
Lemma usize_op_nf pf z : usize_op pf z <> NoFuel.
Proof. unfold usize_op. destruct (in_usize z), pf; discriminate. Qed.
Lemma usize_div_nf a b : usize_div a b <> NoFuel.
Proof. unfold usize_div. destruct (_ =? _)%Z; discriminate. Qed.
Lemma isize_div_nf a b : isize_div a b <> NoFuel.
Proof. unfold isize_div. destruct (_ =? _)%Z; [discriminate|]. destruct (in_isize _); discriminate. Qed.
Lemma q_reduce_nf a : q_reduce a <> NoFuel.
Proof. unfold q_reduce. apply bind_nofuel; [apply isize_div_nf|]. intros n. apply bind_nofuel; [apply usize_div_nf|discriminate]. Qed.
Lemma q_add_nf pf a b : q_add pf a b <> NoFuel.
Proof.
  unfold q_add. apply bind_nofuel.
  { unfold usize_lcm. destruct (_ && _)%bool; [discriminate|]. apply bind_nofuel; [apply usize_div_nf|]. intros; apply usize_op_nf. }
  intros l. apply bind_nofuel; [apply usize_div_nf|]. intros fa. apply bind_nofuel; [apply isize_op_nf|]. intros ta.
  apply bind_nofuel; [apply usize_div_nf|]. intros fb. apply bind_nofuel; [apply isize_op_nf|]. intros tb. apply bind_nofuel; [apply isize_op_nf|]. intros n.
  destruct (n =? 0)%Z; [discriminate|]. apply bind_nofuel; [apply q_reduce_nf|discriminate].
Qed.
Lemma q_mul_nf pf a b : q_mul pf a b <> NoFuel.
Proof. unfold q_mul. apply bind_nofuel; [apply isize_op_nf|]. intros n. apply bind_nofuel; [apply usize_op_nf|]. intros; apply q_reduce_nf. Qed.
Lemma q_neg_nf pf a : q_neg pf a <> NoFuel.
Proof. unfold q_neg. apply bind_nofuel; [apply isize_op_nf|discriminate]. Qed.
Lemma q_inv_nf pf a : q_inv pf a <> NoFuel.
Proof. unfold q_inv. apply bind_nofuel; [apply isize_op_nf|discriminate]. Qed.
Lemma q_checked_nf (a b : q_checked) : x_add a b <> NoFuel /\ x_mul a b <> NoFuel /\ x_neg a <> NoFuel /\ x_inv a <> NoFuel.
Proof.
  cbn. repeat split; try (destruct (_ <? _)%Z; [|discriminate]); auto using q_add_nf, q_mul_nf, q_neg_nf, q_inv_nf.
Qed.

Lemma q_checked_prof pf : refines q_checked (q_mach pf) (fun _ => True) (fun x : mq => x).
Proof.
  split.
  - split; auto.
  - intros a b o _ _. cbn. destruct (_ <? _)%Z; [|discriminate]. intros H. split; auto. rewrite (q_add_prof _ _ pf H). now destruct o.
  - intros a b c _ _. cbn. destruct (_ <? _)%Z; [|discriminate]. intros H. split; auto. exact (q_mul_prof _ _ pf H).
  - intros a c _. cbn. intros H. split; auto. exact (q_neg_prof _ pf H).
  - intros a c _. cbn. destruct (_ <? _)%Z; [|discriminate]. intros H. split; auto. exact (q_inv_prof _ pf H).
  - apply q_checked_nf.
Qed.

(** the rational that a machine value stands for, as a coefficient (only used for values in lowest terms) *)
Definition mqc (a : mq) : Q_coeff := match qmk (Q2Qc (mq_val a)) with Some x => x | None => qi_one end.
Lemma mqc_val a : mq_lowest a -> qv (mqc a) = Q2Qc (mq_val a).
Proof.
  intros H. unfold mqc. pose proof (oqv_mk (Q2Qc (mq_val a))) as E. destruct (qmk (Q2Qc (mq_val a))) as [x|]; [exact E|]. exfalso. cbn [oqv] in E.
  assert (E0 : Qeq (mq_val a) 0). { apply Q2Qc_eq_iff. now symmetry. }
  destruct H as (H & _). apply H. unfold mq_val in E0. now apply qeq0_num in E0.
Qed.
Lemma mqc_eq a (x : qnz) : mq_lowest a -> Q2Qc (mq_val a) = qv x -> mqc a = x.
Proof. intros H E. apply qnz_eq. now rewrite mqc_val. Qed.
Lemma qc_mk_eq (x : Q) (y : Qc) : Qeq x y -> Q2Qc x = y.
Proof. intros H. apply Qc_is_canon. cbn. now rewrite Qred_correct. Qed.
Lemma qc_val (x : Q) : Qeq (Q2Qc x) x.
Proof. cbn. apply Qred_correct. Qed.

Lemma q_exact_ok r v c : q_exact r v -> r = Ok c -> mq_lowest c /\ Qeq (mq_val c) v.
Proof. intros (q & -> & H) [= <-]. exact H. Qed.
Lemma q_checked_exact : refines q_checked (pure_mach Q_coeff) mq_lowest (mqc : q_checked -> pure_mach Q_coeff).
Proof.
  split.
  - assert (L : mq_lowest q_one) by (unfold mq_lowest; cbn; repeat split; lia). split; [exact L|]. exact (@mqc_eq q_one qi_one L eq_refl).
  - intros a b o Ha Hb. cbn [x_add x_mul q_checked pure_mach Q_coeff k_add k_mul]. destruct (Z.ltb_spec (Z.lcm (q_den a) (q_den b)) (2 ^ 63)) as [Hl|]; [|discriminate]. intros E.
    destruct (q_add_debug _ _ Ha Hb Hl) as [P|X]; [congruence|]. assert (Eo : forall t : option qnz, oqv t = (qv (mqc a) + qv (mqc b))%Qc -> qi_add (mqc a) (mqc b) = t).
    { intros t Et. apply oqv_inj. unfold qi_add. rewrite oqv_mk. now symmetry. }
    assert (Vab : Qeq (qv (mqc a) + qv (mqc b))%Qc (mq_val a + mq_val b)).
    { unfold Qcplus. rewrite qc_val. rewrite !mqc_val by auto. now rewrite !qc_val. }
    destruct X as [[Hz X]|(q & X & Hq & Vq)]; rewrite X in E; injection E as <-; cbn [option_map].
    + split; [discriminate|]. f_equal. apply Eo. cbn [oqv]. apply Qc_is_canon. rewrite Vab. rewrite Hz. reflexivity.
    + split; [now intros ? [= <-]|]. f_equal. apply Eo. cbn [oqv]. apply Qc_is_canon. rewrite Vab, mqc_val by auto. rewrite qc_val. exact Vq.
  - intros a b c Ha Hb. cbn [x_add x_mul q_checked pure_mach Q_coeff k_add k_mul]. destruct (Z.ltb_spec (q_den a * q_den b) (2 ^ 63)) as [Hl|]; [|discriminate]. intros E.
    destruct (@q_mul_debug a b Ha Hb) as [P|X]; [lia|congruence|]. destruct (q_exact_ok X E) as [Hc Vc]. split; auto. f_equal. symmetry. apply mqc_eq; auto.
    apply Qc_is_canon. unfold qi_mul, qget, qv at 1; cbn [proj1_sig]. unfold Qcmult. rewrite !qc_val. rewrite Vc. rewrite !mqc_val by auto. now rewrite !qc_val.
  - intros a c Ha. cbn [x_neg x_inv q_checked pure_mach Q_coeff k_neg k_inv]. intros E. destruct (@q_neg_debug a Ha) as [P|X]; [congruence|]. destruct (q_exact_ok X E) as [Hc Vc]. split; auto. f_equal. symmetry. apply mqc_eq; auto.
    apply Qc_is_canon. unfold qi_neg, qget, qv at 1; cbn [proj1_sig]. unfold Qcopp. rewrite !qc_val. rewrite Vc. rewrite !mqc_val by auto. now rewrite !qc_val.
  - intros a c Ha. cbn [x_neg x_inv q_checked pure_mach Q_coeff k_neg k_inv]. destruct (Z.ltb_spec (q_den a) (2 ^ 63)) as [Hl|]; [|discriminate]. intros E. pose proof (@q_inv_exact Debug a Ha Hl) as X.
    destruct (q_exact_ok X E) as [Hc Vc]. split; auto. f_equal. symmetry. apply mqc_eq; auto.
    apply Qc_is_canon. unfold qi_inv, qget, qv at 1; cbn [proj1_sig]. unfold Qcinv. rewrite !qc_val. rewrite Vc. rewrite !mqc_val by auto. now rewrite !qc_val.
  - apply q_checked_nf.
Qed.

(** the same matrix of [Q]s, in a build with profile [pf] *)
Definition at_profile (pf : profile) {C R F : ordT} (D : xmatrix q_checked C R F) : xmatrix (q_mach pf) C R F :=
  @XMatrix (q_mach pf) C R F (x_col D) (x_fil D) (x_colf D).
Lemma q_mat_prof pf {C R F : ordT} (D : xmatrix q_checked C R F) :
  mat_sim (A:=q_checked) (B:=q_mach pf) (fun _ => True) (fun x : mq => x) D (at_profile pf D).
Proof.
  split; [|split; [reflexivity|]].
  - intros c. cbn [at_profile x_col]. destruct (x_col D c) as [l| |]; cbn [simr]; auto. exists l. split; auto. rewrite <- (map_id l) at 2. apply forall2_self. intros [k r] _. repeat split.
  - intros c. cbn [at_profile x_colf]. destruct (x_colf D c) as [l| |]; cbn [simr]; auto. exists l. split; auto. rewrite <- (map_id l) at 2. apply forall2_self. intros [g r k] _. repeat split.
Qed.
Lemma q_mat_exact {C R F : ordT} (D : xmatrix q_checked C R F) : valid_entries (A:=q_checked) mq_lowest D ->
  mat_sim (A:=q_checked) (B:=pure_mach Q_coeff) mq_lowest (mqc : q_checked -> pure_mach Q_coeff) D (xm (ideal (mqc : q_checked -> Q_coeff) D)).
Proof.
  intros [H1 H2]. split; [|split; [reflexivity|]].
  - intros c. cbn [xm x_col ideal m_col]. destruct (x_col D c) as [l| |] eqn:E; cbn [bind simr]; auto. eexists. split; [reflexivity|]. apply forall2_self. intros [k r] Hk. split; [split; [exact (H1 _ _ _ _ E Hk)|reflexivity]|reflexivity].
  - intros c. cbn [xm x_colf ideal m_colf]. destruct (x_colf D c) as [l| |] eqn:E; cbn [bind simr]; auto. eexists. split; [reflexivity|]. apply forall2_self. intros e He. split; auto. exact (H2 _ _ _ E He).
Qed.

(** With [Q]: stop the run when checked arithmetic overflows or a denominator reaches [2^63].  Either the run is
    stopped, or it returns the same [V] and diagram in both build profiles, every coefficient of [V] is in lowest
    terms, and read as rationals they are what the run over the field of rationals returns. *)
Theorem C82_Q_standard :
  forall (HI : heaps) (U : uniform HI) (C F : ordT) (phi : C -> F) (D : xmatrix q_checked C C F) (b : basis C) (l : list C),
  valid_entries (A:=q_checked) mq_lowest D ->
  let D0 := ideal (mqc : q_checked -> Q_coeff) D in
  square_matrix phi D0 b l -> forall fuel, length (row_set (m_col D0) l) < fuel -> forall reverse_order,
  x_standard_algo_with_diagram HI fuel D b reverse_order = Panic \/
  exists v dg,
    x_standard_algo_with_diagram HI fuel D b reverse_order = Ok (v, dg) /\
    (forall pf, x_standard_algo_with_diagram HI fuel (at_profile pf D) b reverse_order = Ok (v, dg)) /\
    valid_v mq_lowest v /\
    standard_algo_with_diagram HI fuel D0 b reverse_order = Ok (vmap (mqc : q_checked -> Q_coeff) v, dg) /\
    forall i j, In (i, j) (pairings dg) <-> In j l /\ is_pair phi l (mden (m_col D0)) i j.
Proof.
  intros HI U C F phi D b l Hv D0 Hsq fuel Hf ro.
  destruct (@C25_pairs_intrinsic HI _ _ _ phi D0 b l Hsq fuel Hf ro) as (v0 & dg & E & _ & Hpairs).
  pose proof (s_with_diagram (HI:=HI) U q_checked_exact fuel b ro (q_mat_exact Hv)) as S. rewrite pure_with_diagram in S.
  assert (P : forall pf, simr (rP (rV (A:=q_checked) (B:=q_mach pf) (fun _ => True) (fun x : mq => x)) eq) (x_standard_algo_with_diagram HI fuel D b ro) (x_standard_algo_with_diagram HI fuel (at_profile pf D) b ro)).
  { intros pf. exact (s_with_diagram (HI:=HI) U (q_checked_prof pf) fuel b ro (q_mat_prof pf D)). }
  destruct (x_standard_algo_with_diagram HI fuel D b ro) as [[v dg1]| |] eqn:Ex; [right|left; reflexivity|].
  2:{ exfalso. cbn [simr] in S. unfold D0 in E. rewrite E in S. discriminate. }
  destruct S as ([v' dg'] & E' & Hv' & Hdg). cbn [fst snd] in *. subst dg'. apply rV_map in Hv'. destruct Hv' as [-> Hgood].
  unfold D0 in E. rewrite E in E'. injection E' as E1 E2. subst v0 dg1. exists v, dg. split; [reflexivity|]. split; [|split; [exact Hgood|split; [exact E|exact Hpairs]]].
  intros pf. destruct (P pf) as ([v' dg'] & E' & Hv' & Hdg). cbn [fst snd] in *. subst dg'. apply rV_map in Hv'. destruct Hv' as [-> _]. rewrite E'. f_equal. f_equal.
  rewrite <- (map_id v) at 2. apply map_ext. intros [c t]. cbn [fst snd]. f_equal. rewrite <- (map_id t) at 2. apply map_ext. now intros [k x].
Qed.
Print Assumptions C82_Q_standard.

Theorem C82_Q_clearing :
  forall (HI : heaps) (U : uniform HI) (C F : ordT) (phi : C -> F) (D : xmatrix q_checked C C F) (sb : split_basis C) (dims : list nat) (blocks : list (list C)),
  valid_entries (A:=q_checked) mq_lowest D ->
  let D0 := ideal (mqc : q_checked -> Q_coeff) D in
  block_complex phi D0 sb dims blocks -> forall fuel, length (row_set (m_col D0) (concat blocks)) < fuel ->
  x_build_with_diagram HI fuel D sb dims = Panic \/
  exists rc dg,
    x_build_with_diagram HI fuel D sb dims = Ok (rc, dg) /\
    (forall pf, x_build_with_diagram HI fuel (at_profile pf D) sb dims = Ok (rc, dg)) /\
    valid_rc mq_lowest rc /\
    build_with_diagram HI fuel D0 sb dims = Ok (rcmap (mqc : q_checked -> Q_coeff) rc, dg) /\
    forall l', NoDup l' -> (forall c, In c l' <-> In c (concat blocks)) -> (forall blk x y, In blk blocks -> before blk x y -> before l' x y) ->
      (forall i j, In (i, j) (pairings dg) <-> In j l' /\ is_pair phi l' (mden (m_col D0)) i j) /\
      (forall c, In c (essential dg) <-> is_essential phi l' (mden (m_col D0)) c).
Proof.
  intros HI U C F phi D sb dims blocks Hv D0 HB fuel Hf.
  destruct (@C32_clearing_intrinsic HI _ _ _ phi D0 sb dims blocks HB fuel Hf) as (v0 & dg & E & _ & _ & Hpairs).
  pose proof (s_build_with_diagram (HI:=HI) U q_checked_exact (q_mat_exact Hv) fuel sb dims) as S. rewrite pure_build_with_diagram in S.
  assert (P : forall pf, simr (rP (rR (A:=q_checked) (B:=q_mach pf) (fun _ => True) (fun x : mq => x)) eq) (x_build_with_diagram HI fuel D sb dims) (x_build_with_diagram HI fuel (at_profile pf D) sb dims)).
  { intros pf. exact (s_build_with_diagram (HI:=HI) U (q_checked_prof pf) (q_mat_prof pf D) fuel sb dims). }
  destruct (x_build_with_diagram HI fuel D sb dims) as [[v dg1]| |] eqn:Ex; [right|left; reflexivity|].
  2:{ exfalso. cbn [simr] in S. unfold D0 in E. rewrite E in S. discriminate. }
  destruct S as ([v' dg'] & E' & Hv' & Hdg). cbn [fst snd] in *. subst dg'. apply rR_map in Hv'. destruct Hv' as [-> Hgood].
  unfold D0 in E. rewrite E in E'. injection E' as E1 E2. subst v0 dg1. exists v, dg. split; [reflexivity|]. split; [|split; [exact Hgood|split; [exact E|exact Hpairs]]].
  intros pf. destruct (P pf) as ([v' dg'] & E' & Hv' & Hdg). cbn [fst snd] in *. subst dg'. apply rR_map in Hv'. destruct Hv' as [-> _]. rewrite E'. f_equal. f_equal.
  rewrite <- (map_id v) at 2. apply map_ext. intros [c [j|t]]; cbn [fst snd]; auto. do 2 f_equal. rewrite <- (map_id t) at 2. apply map_ext. now intros [k x].
Qed.
Print Assumptions C82_Q_clearing.

(* ------------------------------------------------------------------ *)
(** ** Concrete matrices *)
(** a list of columns with a row filtration, with machine coefficients *)
Definition xcols {A : mach} (cols : list (list (A * nat_ord))) (phi : nat_ord -> nat_ord) : xmatrix A nat_ord nat_ord nat_ord :=
  @xm_default A nat_ord nat_ord nat_ord (fun c : nat => index cols c) (fun r => Ok (phi r)).
Lemma ideal_default_coherent {A : mach} {K : coeffT} (f : A -> K) {C R F : ordT} (col : xoracle A C R) (phi : R -> F) c l :
  col c = Ok l -> coherent_at phi (ideal f (xm_default col (fun r => Ok (phi r)))) c.
Proof.
  intros H. exists (tmap f l), (tag phi (tmap f l)). cbn [ideal m_col m_colf m_fil x_col x_colf x_fil xm_default].
  assert (E : mapM (fun p : A * R => Ok (entry_of_tuple (fst p, snd p, phi (snd p)))) l = Ok (map (fun p => Entry (phi (snd p)) (snd p) (fst p)) l)).
  { clear H. induction l as [|p l IH]; cbn [mapM map bind]; auto. rewrite IH. reflexivity. }
  split; [now rewrite H|]. split; [|split; [auto|split; [apply tag_wfe|intros r; now rewrite tag_terms]]].
  unfold x_default_colf. rewrite H. cbn [bind]. rewrite E. cbn [bind]. f_equal. unfold tag, tmap. rewrite !map_map. reflexivity.
Qed.
Lemma xcols_square {A : mach} {K : coeffT} (f : A -> K) cols phi :
  square_matrix phi (ideal f (xcols cols phi)) (standard_basis (length cols)) (seq 0 (length cols)).
Proof.
  split; [apply seq_NoDup|]. split; [apply (standard_basis_enum (length cols))|].
  intros c Hc. apply in_seq in Hc. destruct (nth_error cols c) as [l|] eqn:E; [|apply nth_error_None in E; lia].
  eapply ideal_default_coherent. unfold index. rewrite E. reflexivity.
Qed.
Lemma xcols_valid {A : mach} (good : A -> Prop) cols phi : (forall l k r, In l cols -> In (k, r) l -> good k) -> valid_entries good (xcols cols phi).
Proof.
  intros H. assert (H1 : forall c l, index cols c = Ok l -> In l cols).
  { intros c l. unfold index. destruct (nth_error cols c) eqn:E; intros [= ->]. eapply nth_error_In; eauto. }
  split.
  - intros c l k r E Hk. exact (H l k r (H1 c l E) Hk).
  - intros c es e E He. cbn [xcols xm_default x_colf] in E. unfold x_default_colf in E. apply bind_ok in E. destruct E as (l & El & E).
    assert (E2 : mapM (fun p : A * nat => do f0 <- Ok (phi (snd p)); Ok (@entry_of_tuple nat nat A (fst p, snd p, f0))) l = Ok (map (fun p => @Entry nat nat A (phi (snd p)) (snd p) (fst p)) l)).
    { clear. induction l as [|p l IH]; [reflexivity|]. cbn [mapM map]. rewrite IH. reflexivity. }
    assert (E3 := eq_trans (eq_sym E2) E). injection E3 as <-. apply in_map_iff in He. destruct He as ([k r] & <- & Hk). cbn [e_coeff fst]. eapply H; eauto.
Qed.

(** the filled triangle over [Z3] *)
Definition zt (k : Z) (r : nat) : zp_mach 3 * nat_ord := (k, r).
Definition ztri : list (list (zp_mach 3 * nat_ord)) :=
  [ []; []; []; [zt 2 0; zt 1 1]; [zt 2 0; zt 1 2]; [zt 1 0; zt 1 2; zt 2 1; zt 2 0]; [zt 1 3; zt 2 4; zt 1 5] ].
Example C81_ex_hyps : valid_entries (A:=zp_mach 3) (fun a : Z => 1 <= a < 3)%Z (xcols ztri tri_fil) /\
  square_matrix tri_fil (ideal (zp_mk 3 prime3 : zp_mach 3 -> ZP_coeff 3 prime3) (xcols ztri tri_fil)) (standard_basis 7) (seq 0 7).
Proof.
  split; [|apply (xcols_square (zp_mk 3 prime3 : zp_mach 3 -> ZP_coeff 3 prime3) ztri tri_fil)].
  apply xcols_valid. intros l k r Hl Hk. cbn in Hl. repeat (destruct Hl as [<-|Hl]; [cbn in Hk; repeat (destruct Hk as [[= <- <-]|Hk]; [lia|]); destruct Hk|]). destruct Hl.
Qed.
Example C81_ex_run : exists v, x_standard_algo_with_diagram list_heaps 100 (xcols ztri tri_fil) (standard_basis 7) false =
  Ok (v, @Diagram nat_ord [0] [(5, 6); (2, 4); (1, 3)]) /\ map_get (5 : nat_ord) v = Some [zt 1 5; zt 2 4; zt 1 3].
Proof. eexists. split; vm_compute; reflexivity. Qed.
Lemma block_complex_ext {K : coeffT} {C F : ordT} (phi : C -> F) (D D' : fmatrix K C C F) sb dims blocks :
  (forall c, m_col D' c = m_col D c) -> (forall c, In c (concat blocks) -> coherent_at phi D' c) -> block_complex phi D sb dims blocks -> block_complex phi D' sb dims blocks.
Proof.
  intros E Hc (H1 & H2 & _ & H4 & H5 & H6). assert (Em : forall c r, mden (m_col D') c r = mden (m_col D) c r) by (intros c r; unfold mden; now rewrite E).
  refine (conj H1 (conj H2 (conj Hc (conj H4 (conj _ _))))).
  - intros pre blk next post Eb c Hin. destruct (H5 _ _ _ _ Eb c Hin) as [X Y]. split; [intros t k r; rewrite E; apply X|]. intros r. rewrite <- (Y r). apply lincomb_ext; intros; apply Em.
  - intros pre blk Eb c r Hin. rewrite Em. now apply (H6 _ _ Eb).
Qed.
Example C81_ex_block : block_complex (F:=nat_ord) tri_fil (ideal (zp_mk 3 prime3 : zp_mach 3 -> ZP_coeff 3 prime3) (xcols ztri tri_fil)) tri_sb [2; 1; 0] tri_blocks.
Proof.
  apply (@block_complex_ext Z3_coeff nat_ord nat_ord tri_fil tri_D); [| |exact tri_block_complex].
  - intros c. do 7 (destruct c as [|c]; [reflexivity|]). cbn [ideal m_col xcols xm_default x_col]. unfold index. rewrite (proj2 (nth_error_None ztri _)) by (cbn; lia).
    unfold tri_D, with_filtration; cbn [m_col]. unfold tri_cols, vecvec_column. cbn. now destruct c.
  - intros c Hc. apply C81_ex_hyps. apply in_seq. simpl in Hc. change nat in c. intuition lia.
Qed.
Example C81_ex_run_clearing : exists rc, x_build_with_diagram list_heaps 100 (xcols ztri tri_fil) tri_sb [2; 1; 0] =
  Ok (rc, @Diagram nat_ord [0] [(2, 4); (1, 3); (5, 6)]) /\ map_get (5 : nat_ord) rc = Some (Cleared 6).
Proof. eexists. split; vm_compute; reflexivity. Qed.

(** a matrix of rationals on which nothing overflows, and one on which the run is stopped *)
Definition qt (n d : Z) (r : nat) : Z * Z * nat := (n, d, r).
Definition qcol (l : list (Z * Z * nat)) : list (q_checked * nat_ord) := map (fun p => (MQ (fst (fst p)) (snd (fst p)), snd p)) l.
Definition qtri : list (list (q_checked * nat_ord)) :=
  map qcol [ []; []; []; [qt (-1) 1 0; qt (1) 1 1]; [qt (-1) 2 0; qt (1) 2 2]; [qt (-2) 3 1; qt (2) 3 2]; [qt (6) 1 3; qt (-12) 1 4; qt (9) 1 5] ].
Definition qbig : list (list (q_checked * nat_ord)) :=
  map qcol [ []; []; []; [qt (1) 1 2; qt (2 ^ 31) 1 0]; [qt (1) 1 1; qt (2 ^ 31) 1 0]; [qt (2 ^ 32) 1 2; qt (2 ^ 32) 1 1] ].
Lemma q_valid_check (cols : list (list (Z * Z * nat))) phi :
  forallb (forallb (fun p => negb (fst (fst p) =? 0) && (0 <? snd (fst p)) && (Z.gcd (fst (fst p)) (snd (fst p)) =? 1) && in_isize (fst (fst p)) && in_usize (snd (fst p)))%Z) cols = true ->
  valid_entries (A:=q_checked) mq_lowest (xcols (map qcol cols) phi).
Proof.
  intros H. apply xcols_valid. intros l k r Hl Hk. apply in_map_iff in Hl. destruct Hl as (l0 & <- & Hl). apply in_map_iff in Hk. destruct Hk as ([[n d] r'] & [= <- <-] & Hp).
  rewrite forallb_forall in H. apply H in Hl. rewrite forallb_forall in Hl. apply Hl in Hp. cbn [fst snd] in Hp. rewrite !Bool.andb_true_iff in Hp. destruct Hp as ((((A1 & A2) & A3) & A4) & A5).
  unfold mq_lowest. cbn [q_num q_den]. apply Bool.negb_true_iff in A1. repeat split; auto; lia.
Qed.
Example C82_ex_hyps : valid_entries (A:=q_checked) mq_lowest (xcols qtri tri_fil) /\ valid_entries (A:=q_checked) mq_lowest (xcols qbig (fun r => r)) /\
  square_matrix tri_fil (ideal (mqc : q_checked -> Q_coeff) (xcols qtri tri_fil)) (standard_basis 7) (seq 0 7) /\
  square_matrix (F:=nat_ord) (fun r => r) (ideal (mqc : q_checked -> Q_coeff) (xcols qbig (fun r => r))) (standard_basis 6) (seq 0 6).
Proof.
  split; [apply q_valid_check; reflexivity|]. split; [apply q_valid_check; reflexivity|].
  split; [apply (xcols_square (mqc : q_checked -> Q_coeff) qtri tri_fil)|apply (xcols_square (mqc : q_checked -> Q_coeff) qbig (fun r => r))].
Qed.
Example C82_ex_run : exists v, x_standard_algo_with_diagram list_heaps 100 (xcols qtri tri_fil) (standard_basis 7) false =
  Ok (v, @Diagram nat_ord [0] [(5, 6); (2, 4); (1, 3)]) /\ map_get (5 : nat_ord) v = Some (qcol [qt (1) 1 5; qt (-4) 3 4; qt (2) 3 3]).
Proof. eexists. split; vm_compute; reflexivity. Qed.
Example C82_ex_block : block_complex (F:=nat_ord) tri_fil (ideal (mqc : q_checked -> Q_coeff) (xcols qtri tri_fil)) tri_sb [2; 1; 0] tri_blocks.
Proof.
  pose proof tri_block_complex as (B1 & B2 & _ & B4 & _ & _). refine (conj B1 (conj B2 (conj _ (conj B4 (conj _ _))))).
  - intros c Hc. apply C82_ex_hyps. apply in_seq. simpl in Hc. change nat in c. intuition lia.
  - intros pre blk next post E c Hc.
    assert (Hcase : (blk = [6] /\ next = [3; 4; 5]) \/ (blk = [3; 4; 5] /\ next = [0; 1; 2])).
    { destruct pre as [|? [|? [|? pre]]]; simpl in E; inversion E; subst; auto; destruct pre; discriminate. }
    destruct Hcase as [[-> ->]|[-> ->]]; (split; [|]).
    + intros t k r Et Hr. simpl in Hc. destruct Hc as [<-|[]]. vm_compute in Et. injection Et as <-. simpl in Hr. simpl.
      decompose [or] Hr; try tauto; match goal with H : _ = (k, r) |- _ => injection H as _ <- end; auto.
    + intros r. simpl in Hc. destruct Hc as [<-|[]]. change nat in r. do 7 (destruct r as [|r]; [vm_compute; reflexivity|]). vm_compute. reflexivity.
    + intros t k r Et Hr. simpl in Hc. decompose [or] Hc; try tauto; subst c; vm_compute in Et; injection Et as <-; simpl in Hr |- *;
      decompose [or] Hr; try tauto; match goal with H : _ = (k, r) |- _ => injection H as _ <- end; auto.
    + intros r. simpl in Hc. change nat in r. decompose [or] Hc; try tauto; subst c; (do 7 (destruct r as [|r]; [vm_compute; reflexivity|]); vm_compute; reflexivity).
  - intros pre blk E c r Hc Hn. exfalso.
    assert (blk = [0; 1; 2]).
    { destruct pre as [|? [|? [|? pre]]]; simpl in E; inversion E; subst; auto; destruct pre; discriminate. }
    subst blk. apply Hn. simpl in Hc. decompose [or] Hc; try tauto; subst c; reflexivity.
Qed.
Example C82_ex_run_clearing : exists rc, x_build_with_diagram list_heaps 100 (xcols qtri tri_fil) tri_sb [2; 1; 0] =
  Ok (rc, @Diagram nat_ord [0] [(2, 4); (1, 3); (5, 6)]) /\ map_get (5 : nat_ord) rc = Some (Cleared 6).
Proof. eexists. split; vm_compute; reflexivity. Qed.
(** An overflow: with overflow checks the run panics; without them it returns, silently, a wrong diagram: column [5]
    is reported essential, while over the rationals it is paired with row [0]. *)
Theorem C82_release_wrong_refuted :
  x_standard_algo_with_diagram list_heaps 100 (at_profile Debug (xcols qbig (fun r => r))) (standard_basis 6) false = Panic /\
  (exists v dg, x_standard_algo_with_diagram list_heaps 100 (at_profile Release (xcols qbig (fun r => r))) (standard_basis 6) false = Ok (v, dg) /\
    In 5 (essential dg) /\ ~ In (0, 5) (pairings dg)) /\
  is_pair (F:=nat_ord) (fun r : nat_ord => r) (seq 0 6 : list nat_ord) (mden (m_col (ideal (mqc : q_checked -> Q_coeff) (xcols qbig (fun r => r))))) 0 5.
Proof.
  split; [vm_compute; reflexivity|]. split.
  { eexists. eexists. split; [vm_compute; reflexivity|]. split; [cbn; tauto|cbn; intuition congruence]. }
  destruct C82_ex_hyps as (_ & _ & _ & Hsq).
  destruct (@C25_pairs_intrinsic list_heaps _ _ _ _ _ _ _ Hsq 100) with (reverse_order := false) as (v & dg & E & _ & Hp).
  { vm_compute. lia. }
  apply (Hp 0 5). clear Hp Hsq.
  assert (P : exists t, standard_algo_with_diagram list_heaps 100 (ideal (mqc : q_checked -> Q_coeff) (xcols qbig (fun r => r))) (standard_basis 6) false = Ok t /\ In (0, 5) (pairings (snd t))).
  { eexists. split; [vm_compute; reflexivity|]. cbn. tauto. }
  destruct P as ([v' dg'] & E' & P). rewrite E in E'. injection E' as <- <-. exact P.
Qed.
Print Assumptions C82_release_wrong_refuted.
