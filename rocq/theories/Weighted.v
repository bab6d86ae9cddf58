(** Grounded path homology of a shortest-path filtration: new edges never create homology. *)
From Verif Require Import Base Fields FieldsFacts Spec LinAlg Columns ColumnsFacts Matrices SpecMat MatricesFacts Reduction Graded StandardResults Duality GrpphCells Grpph SpecGrpph SpecPath SpecPH SpecWeighted GrpphFacts GrpphColumns GrpphComplex GrpphReduce GrpphInvolution GrpphList GrpphRun Persistence RipsPersistence BettiUnique PathBasis PathBetti.
From Coq Require Import Ring Field Ring_theory Permutation Relations Lia.
Set Implicit Arguments.

Section Chains.
  Context {K : coeffT} {F : ordT}.
  Add Field KFW : (F_field K).
  Variables (time : nat -> nat -> option F) (n : nat) (z inf : F) (E : list (nat * nat)).
  Hypothesis HG : filtered_digraph time n z inf.
  Hypothesis HE : forall s t, In (s, t) E -> s < n /\ t < n.
  Notation bd1 e := (edge_bdry (K:=K) n e).
  Notation bd2 u := (path_bdry (K:=K) n u).
  Notation B1 := (boundary_1 (K:=K) time n).

  Lemma edge_bdry_lin (k : option K) (e e' : edge_chain (K:=K)) v : bd1 (fun x y => fadd (e x y) (fmul k (e' x y))) v = fadd (bd1 e v) (fmul k (bd1 e' v)).
  Proof.
    unfold edge_bdry. rewrite <- vsum_mul_l, <- vsum_add. apply vsum_ext. intros x _. rewrite <- vsum_mul_l, <- vsum_add. apply vsum_ext. intros y _. ring.
  Qed.
  Lemma edge_bdry_ext (e e' : edge_chain (K:=K)) v : (forall x y, e x y = e' x y) -> bd1 e v = bd1 e' v.
  Proof. intros H. unfold edge_bdry. apply vsum_ext. intros x _. apply vsum_ext. intros y _. now rewrite H. Qed.
  Lemma path_bdry_lin (k : option K) (u u' : path_chain (K:=K)) x y :
    bd2 (fun a b c => fadd (u a b c) (fmul k (u' a b c))) x y = fadd (bd2 u x y) (fmul k (bd2 u' x y)).
  Proof.
    unfold path_bdry. rewrite <- vsum_mul_l, <- vsum_add. apply vsum_ext. intros a _. rewrite <- vsum_mul_l, <- vsum_add. apply vsum_ext. intros b _.
    rewrite <- vsum_mul_l, <- vsum_add. apply vsum_ext. intros c _. ring.
  Qed.
  Lemma lin_nz (k a b : option K) : fadd a (fmul k b) <> f0 -> a <> f0 \/ b <> f0.
  Proof. intros H. destruct (fscalar_dec a) as [->|]; auto. destruct (fscalar_dec b) as [->|]; auto. exfalso. apply H. ring. Qed.
  Lemma invariant_lin t (k : option K) u u' : invariant_2_paths time n t u -> invariant_2_paths time n t u' ->
    invariant_2_paths time n t (fun a b c => fadd (u a b c) (fmul k (u' a b c))).
  Proof.
    intros [H1 H2] [H3 H4]. split.
    - intros a b c Hn. apply lin_nz in Hn. destruct Hn; auto.
    - intros x y Hn. rewrite path_bdry_lin in Hn. apply lin_nz in Hn. destruct Hn; auto.
  Qed.
  Lemma B1_lin t (k : option K) e e' : B1 t e -> B1 t e' -> B1 t (fun x y => fadd (e x y) (fmul k (e' x y))).
  Proof.
    intros (u & Hu & E1) (u' & Hu' & E2). exists (fun a b c => fadd (u a b c) (fmul k (u' a b c))). split; [now apply invariant_lin|].
    intros x y. now rewrite path_bdry_lin, E1, E2.
  Qed.
  Lemma B1_ext t e e' : (forall x y, e x y = e' x y) -> B1 t e -> B1 t e'.
  Proof. intros H (u & Hu & E1). exists u. split; auto. intros x y. now rewrite <- H. Qed.
  Lemma B1_zero t : B1 t (fun _ _ => f0).
  Proof.
    exists (fun _ _ _ => f0). assert (H : forall x y, bd2 (fun _ _ _ => f0) x y = f0).
    { intros x y. unfold path_bdry. apply vsum_0. intros a _. apply vsum_0. intros b _. apply vsum_0. intros c _. ring. }
    split; [|intros x y; now rewrite H]. split; [intros a b c H'; congruence|]. intros x y Hn. rewrite H in Hn. congruence.
  Qed.
  (** boundaries are cycles *)
  Lemma path_boundary_cycle a b c v : a < n -> b < n -> c < n -> bd1 (fun x y => path_boundary a b c x y) v = f0.
  Proof.
    intros Ha Hb Hc. assert (HN : forall v, v < n -> In v (seq 0 n)) by (intros w Hw; apply in_seq; lia).
    assert (Hd : forall p q, p < n -> q < n -> bd1 (fun x y => delta ((p =? x) && (q =? y))) v = fsub (delta (q =? v)) (delta (p =? v))).
    { intros p q Hp Hq. unfold edge_bdry. rewrite (@vsum_single K nat (seq 0 n) _ p);[ |apply seq_NoDup|auto| ].
      2:{ intros a' _ Hne. apply vsum_0. intros b' _. destruct (Nat.eqb_spec p a'); [congruence|]. cbn [andb delta]. ring. }
      rewrite (@vsum_single K nat (seq 0 n) _ q);[ |apply seq_NoDup|auto| ].
      2:{ intros b' _ Hne. destruct (Nat.eqb_spec q b'); [congruence|]. rewrite andb_false_r. cbn [andb delta]. ring. }
      rewrite !Nat.eqb_refl. cbn [andb delta]. ring. }
    unfold path_boundary. destruct (Nat.eqb_spec a c) as [<-|Hac].
    - rewrite (@edge_bdry_ext _ (fun x y => fadd (delta ((b =? x) && (a =? y))) (fmul f1 (delta ((a =? x) && (b =? y)))))) by (intros; ring).
      rewrite edge_bdry_lin, !Hd by auto. ring.
    - rewrite (@edge_bdry_ext _ (fun x y => fadd ((fun x y => fadd (delta ((b =? x) && (c =? y))) (fmul f1 (delta ((a =? x) && (b =? y))))) x y) (fmul (fopp f1) (delta ((a =? x) && (c =? y)))))) by (intros; ring).
      rewrite edge_bdry_lin, edge_bdry_lin, !Hd by auto. ring.
  Qed.
  Lemma B1_cycle t e : B1 t e -> forall v, bd1 e v = f0.
  Proof.
    intros (u & [Hu _] & He) v.
    assert (Hlt : forall a b c, u a b c <> f0 -> a < n /\ b < n /\ c < n).
    { intros a b c Hn. destruct (Hu _ _ _ Hn) as [(f1 & E1 & _) (f2 & E2 & _)]. destruct HG as [_ HG2]. apply HG2 in E1, E2. tauto. }
    unfold edge_bdry. transitivity (vsum (seq 0 n) (fun a => vsum (seq 0 n) (fun b => vsum (seq 0 n) (fun c => fmul (u a b c) (bd1 (fun x y => path_boundary a b c x y) v))))).
    2:{ apply vsum_0. intros a Ha. apply vsum_0. intros b Hb. apply vsum_0. intros c Hc. apply in_seq in Ha, Hb, Hc. rewrite path_boundary_cycle by lia. ring. }
    unfold edge_bdry.
    transitivity (vsum (seq 0 n) (fun x => vsum (seq 0 n) (fun y => vsum (seq 0 n) (fun a => vsum (seq 0 n) (fun b => vsum (seq 0 n) (fun c => fmul (u a b c) (fmul (path_boundary a b c x y) (fsub (delta (y =? v)) (delta (x =? v)))))))))).
    { apply vsum_ext. intros x _. apply vsum_ext. intros y _. rewrite He. unfold path_bdry. set (d := fsub (delta (y =? v)) (delta (x =? v))).
      transitivity (fmul d (vsum (seq 0 n) (fun a => vsum (seq 0 n) (fun b => vsum (seq 0 n) (fun c => fmul (u a b c) (path_boundary a b c x y)))))); [ring|].
      rewrite <- vsum_mul_l. apply vsum_ext. intros a _. rewrite <- vsum_mul_l. apply vsum_ext. intros b _. rewrite <- vsum_mul_l. apply vsum_ext. intros c _. ring. }
    transitivity (vsum (seq 0 n) (fun x => vsum (seq 0 n) (fun a => vsum (seq 0 n) (fun b => vsum (seq 0 n) (fun c => fmul (u a b c) (vsum (seq 0 n) (fun y => fmul (path_boundary a b c x y) (fsub (delta (y =? v)) (delta (x =? v)))))))))).
    { apply vsum_ext. intros x _. rewrite vsum_swap. apply vsum_ext. intros a _. rewrite vsum_swap. apply vsum_ext. intros b _. rewrite vsum_swap. apply vsum_ext. intros c _. apply vsum_mul_l. }
    rewrite vsum_swap. apply vsum_ext. intros a _. rewrite vsum_swap. apply vsum_ext. intros b _. rewrite vsum_swap. apply vsum_ext. intros c _. apply vsum_mul_l.
  Qed.

  (** chains of edges of [E] *)
  Definition in_E (c : edge_chain (K:=K)) : Prop := forall x y, c x y <> f0 -> In (x, y) E.
  Lemma in_E_lin k c c' : in_E c -> in_E c' -> in_E (fun x y => fadd (c x y) (fmul k (c' x y))).
  Proof. intros H H' x y Hn. apply lin_nz in Hn. destruct Hn; auto. Qed.
  Lemma in_E_at c t : in_E c -> ole z t -> edges_at time z E t c.
  Proof. intros H Ht x y Hn. left. auto. Qed.
  Definition unit (x y : nat) : edge_chain (K:=K) := fun x' y' => delta ((x =? x') && (y =? y')).
  Lemma unit_nz x y x' y' : unit x y x' y' <> f0 -> x' = x /\ y' = y.
  Proof. unfold unit. destruct (Nat.eqb_spec x x'), (Nat.eqb_spec y y'); cbn [andb delta]; auto; intros H; congruence. Qed.

  (** homologous at time [t] to a chain of edges of [E] *)
  Definition reducible (t : F) (e : edge_chain (K:=K)) : Prop := exists c, in_E c /\ B1 t (fun x y => fsub (e x y) (c x y)).
  Lemma reducible_lin t k e e' : reducible t e -> reducible t e' -> reducible t (fun x y => fadd (e x y) (fmul k (e' x y))).
  Proof.
    intros (c & H1 & H2) (c' & H3 & H4). exists (fun x y => fadd (c x y) (fmul k (c' x y))). split; [now apply in_E_lin|].
    eapply B1_ext; [|exact (B1_lin k H2 H4)]. intros x y. cbv beta. ring.
  Qed.
  Lemma reducible_ext t e e' : (forall x y, e x y = e' x y) -> reducible t e -> reducible t e'.
  Proof. intros H (c & H1 & H2). exists c. split; auto. eapply B1_ext; [|exact H2]. intros x y. cbv beta. now rewrite H. Qed.
  Lemma reducible_E t c : in_E c -> reducible t c.
  Proof. intros H. exists c. split; auto. eapply B1_ext; [|apply B1_zero]. intros x y. cbv beta. ring. Qed.
  Lemma reducible_all t e : edges_at time z E t e -> (forall x y, x < n -> y < n -> grounded_edge_at time z E t x y -> reducible t (unit x y)) -> reducible t e.
  Proof.
    intros He Hr.
    assert (H : forall L : list (nat * nat), NoDup L -> (forall p, In p L -> fst p < n /\ snd p < n) -> reducible t (fun x y => vsum L (fun p => fmul (e (fst p) (snd p)) (unit (fst p) (snd p) x y)))).
    { induction L as [|[x y] L IH]; intros HN HL.
      - cbn [vsum]. apply reducible_E. intros x y Hn. congruence.
      - cbn [vsum fst snd]. apply NoDup_cons_iff in HN. destruct HN as [_ HN]. destruct (HL (x, y) (or_introl eq_refl)) as [Hx Hy]. cbn [fst snd] in Hx, Hy.
        assert (IH' := IH HN (fun p Hp => HL p (or_intror Hp))). destruct (fscalar_dec (e x y)) as [E0|Hn].
        + eapply reducible_ext; [|exact IH']. intros a b. cbv beta. rewrite E0. ring.
        + eapply reducible_ext; [|exact (reducible_lin (e x y) IH' (Hr x y Hx Hy (He _ _ Hn)))]. intros a b. cbv beta. ring. }
    eapply reducible_ext; [|apply (H (list_prod (seq 0 n) (seq 0 n)))].
    - intros x y. cbv beta. destruct (fscalar_dec (e x y)) as [E0|Hn].
      + rewrite E0. apply vsum_0. intros [a b] _. cbn [fst snd]. destruct (fscalar_dec (unit a b x y)) as [->|Hu]; [ring|]. apply unit_nz in Hu. destruct Hu as [-> ->]. rewrite E0. ring.
      + assert (Hlt : x < n /\ y < n).
        { apply He in Hn. destruct Hn as [[H1 _]|[_ (f & Ef & _)]]; [auto|]. destruct HG as [_ HG2]. apply HG2 in Ef. tauto. }
        rewrite (@vsum_single K (nat * nat) _ _ (x, y)).
        * cbn [fst snd]. unfold unit. rewrite !Nat.eqb_refl. cbn [andb delta]. ring.
        * apply nodup_prod; apply seq_NoDup.
        * apply in_prod_iff. rewrite !in_seq. lia.
        * intros [a b] _ Hne. cbn [fst snd]. destruct (fscalar_dec (unit a b x y)) as [->|Hu]; [ring|]. apply unit_nz in Hu. destruct Hu as [-> ->]. congruence.
    - apply nodup_prod; apply seq_NoDup.
    - intros [a b] Hp. apply in_prod_iff in Hp. rewrite !in_seq in Hp. cbn [fst snd]. lia.
  Qed.

  (** *** shortest-path filtrations *)
  Variable add : F -> F -> F.
  Variable arc : nat -> nat -> F -> Prop.
  Hypothesis Hadd : nonneg_add add z.
  Hypothesis Harc : forall u v w, arc u v w -> In (u, v) E /\ ole z w.
  Hypothesis Hspf : shortest_path_filtration add z arc time.

  Lemma walk_nonneg x y d : walk add z arc x y d -> ole z d.
  Proof.
    induction 1 as [|u y d w Hw IH Ha]; [apply ole_refl|]. apply Harc in Ha. eapply ole_trans; [exact IH|]. apply Hadd; tauto.
  Qed.
  Lemma walk_time x y d : walk add z arc x y d -> x <> y -> exists f, time x y = Some f /\ ole f d.
  Proof.
    intros Hw Hxy. destruct Hspf as (_ & H1 & H2). destruct (time x y) as [f|] eqn:Ef; [|exfalso; eapply H2; eauto].
    exists f. split; auto. apply H1 in Ef. apply Ef. exact Hw.
  Qed.
  Lemma arc_time u v w : arc u v w -> u <> v -> exists f, time u v = Some f /\ ole f w.
  Proof.
    intros Ha Huv. apply walk_time; auto. destruct Hadd as [Ha0 _]. rewrite <- (Ha0 w). econstructor; [constructor|exact Ha].
  Qed.
  Lemma walk_reducible t x y d : walk add z arc x y d -> x <> y -> ole d t -> reducible t (unit x y).
  Proof.
    induction 1 as [|u y d w Hw IH Ha]; [congruence|]. intros Hxy Ht. pose proof (walk_nonneg Hw) as Hz. destruct (Harc Ha) as [HEu Hzw].
    destruct Hadd as [_ Hadd2]. destruct (Hadd2 d w Hz Hzw) as [Hd1 Hd2].
    assert (HuE : in_E (unit u y)) by (intros a b Hn; apply unit_nz in Hn; destruct Hn as [-> ->]; exact HEu).
    destruct (Nat.eq_dec x u) as [->|Hxu]; [now apply reducible_E|]. destruct (Nat.eq_dec u y) as [->|Huy].
    { apply IH; auto. eapply ole_trans; eauto. }
    destruct (walk_time Hw Hxu) as (g1 & E1 & L1). destruct (arc_time Ha Huy) as (g2 & E2 & L2).
    assert (Hw' : walk add z arc x y (add d w)) by (econstructor; eauto). destruct (walk_time Hw' Hxy) as (g3 & E3 & L3).
    assert (T1 : edge_at time t x u) by (exists g1; split; auto; eapply ole_trans; [exact L1|]; eapply ole_trans; eauto).
    assert (T2 : edge_at time t u y) by (exists g2; split; auto; eapply ole_trans; [exact L2|]; eapply ole_trans; eauto).
    assert (T3 : edge_at time t x y) by (exists g3; split; auto; eapply ole_trans; eauto).
    assert (Hr1 : reducible t (unit x u)) by (apply IH; auto; eapply ole_trans; eauto).
    assert (Hx : x < n /\ u < n /\ y < n). { destruct HG as [_ HG2]. apply HG2 in E1, E2. tauto. }
    assert (Hb : forall a b, bd2 (fun a' b' c' => delta ((x =? a') && (u =? b') && (y =? c'))) a b = path_boundary x u y a b) by (intros a b; apply path_bdry_single; tauto).
    assert (HB : B1 t (fun a b => path_boundary x u y a b)).
    { exists (fun a' b' c' => delta ((x =? a') && (u =? b') && (y =? c'))). split; [|intros a b; now rewrite Hb]. split.
      - intros a b c Hn. apply delta3 in Hn. destruct Hn as (-> & -> & ->). auto.
      - intros a b Hn. rewrite Hb in Hn. unfold path_boundary in Hn. destruct (Nat.eqb_spec x y); [congruence|].
        destruct (Nat.eqb_spec u a), (Nat.eqb_spec y b), (Nat.eqb_spec x a), (Nat.eqb_spec u b); subst; auto; cbn [andb delta] in Hn; exfalso; apply Hn; ring. }
    destruct Hr1 as (c & Hc & HBc). exists (fun a b => fadd (c a b) (fmul f1 (unit u y a b))). split; [apply in_E_lin; auto|].
    eapply B1_ext; [|exact (B1_lin (fopp f1) HBc HB)]. intros a b. cbv beta. unfold path_boundary, unit. destruct (Nat.eqb_spec x y); [congruence|].
    generalize (c a b) (delta ((x =? a) && (u =? b)) : option K) (delta ((u =? a) && (y =? b)) : option K) (delta ((x =? a) && (y =? b)) : option K). intros. ring.
  Qed.

  Lemma grounded_reducible t x y : grounded_edge_at time z E t x y -> reducible t (unit x y).
  Proof.
    intros [[H _]|[_ (f & Ef & Hf)]].
    - apply reducible_E. intros a b Hn. apply unit_nz in Hn. destruct Hn as [-> ->]. exact H.
    - destruct Hspf as (H0 & H1 & _). apply (@walk_reducible t x y f); auto; [apply (H1 _ _ _ Ef)|]. intros ->. rewrite H0 in Ef. discriminate.
  Qed.
  Lemma edge_bdry_sub (e e' : edge_chain (K:=K)) v : bd1 (fun x y => fsub (e x y) (e' x y)) v = fsub (bd1 e v) (bd1 e' v).
  Proof.
    rewrite (@edge_bdry_ext _ (fun x y => fadd (e x y) (fmul (fopp f1) (e' x y)))) by (intros; ring). rewrite edge_bdry_lin. ring.
  Qed.
  Lemma chain_surj t e : edges_at time z E t e -> exists c, in_E c /\ B1 t (fun x y => fsub (e x y) (c x y)) /\ forall v, bd1 e v = bd1 c v.
  Proof.
    intros He. destruct (@reducible_all t e He) as (c & Hc & HB); [intros x y _ _; apply grounded_reducible|]. exists c. split; auto. split; auto.
    intros v. pose proof (B1_cycle HB v) as H. rewrite edge_bdry_sub in H. transitivity (fadd (fsub (bd1 e v) (bd1 c v)) (bd1 c v)); [ring|]. rewrite H. ring.
  Qed.
  Lemma grounded_mono s t x y : ole s t -> grounded_edge_at time z E s x y -> grounded_edge_at time z E t x y.
  Proof.
    intros Hst [[H1 H2]|[H1 (f & Ef & Hf)]]; [left|right]; split; auto; [eapply ole_trans; eauto|]. exists f. split; auto. eapply ole_trans; eauto.
  Qed.
  Lemma cycle_mono s t e : ole s t -> cycle_1 (K:=K) time n z E s e -> cycle_1 time n z E t e.
  Proof. intros Hst [H1 H2]. split; auto. intros x y Hn. eapply grounded_mono; eauto. Qed.

  (** ** every class at time [t] comes from time [z] *)
  Lemma betti1_surj t k : ole z t -> path_betti_1 (K:=K) time n z E z t k -> path_betti_1 (K:=K) time n z E t t k.
  Proof.
    intros Hz (I & bars & Z & N & Hk & H1 & H2 & H3). exists I, bars, Z. split; auto. split; auto. split; [|split; auto].
    - intros b Hb. eapply cycle_mono; [exact Hz|auto].
    - intros e [He Hc]. destruct (chain_surj He) as (c & Hin & HB & Hbd).
      destruct (H2 c) as (a & Ha); [split; [apply in_E_at; [auto|apply ole_refl]|intros v; now rewrite <- Hbd]|].
      exists a. eapply B1_ext; [|exact (B1_lin f1 HB Ha)]. intros x y. cbv beta. ring.
  Qed.
  Lemma betti0_surj t k : ole z t -> path_betti_0 (K:=K) time n z E z t k -> path_betti_0 (K:=K) time n z E t t k.
  Proof.
    intros Hz (I & bars & Z & N & Hk & H1 & H2 & H3). exists I, bars, Z. split; auto. split; auto. split; [|split; auto].
    - intros b Hb v Hn. destruct (H1 b Hb v Hn). auto.
    - intros p Hp. apply H2. intros v Hn. destruct (Hp v Hn). split; auto. apply ole_refl.
  Qed.
  Lemma boundary0_back t p : ole z t -> boundary_0 (K:=K) time n z E t p -> boundary_0 time n z E z p.
  Proof.
    intros Hz (e & He & Hp). destruct (chain_surj He) as (c & Hin & _ & Hbd). exists c. split; [apply in_E_at; [auto|apply ole_refl]|]. intros v. now rewrite Hp, Hbd.
  Qed.
  Lemma boundary0_mono s t p : ole s t -> boundary_0 (K:=K) time n z E s p -> boundary_0 time n z E t p.
  Proof. intros Hz (e & He & Hp). exists e. split; auto. intros x y Hn. eapply grounded_mono; eauto. Qed.
  Lemma betti0_stable t k : ole z t -> path_betti_0 (K:=K) time n z E z z k -> path_betti_0 (K:=K) time n z E z t k.
  Proof.
    intros Hz (I & bars & Z & N & Hk & H1 & H2 & H3). exists I, bars, Z. split; auto. split; auto. split; [auto|split].
    - intros p Hp. destruct (H2 p Hp) as (a & Ha). exists a. eapply boundary0_mono; eauto.
    - intros a Ha. apply H3. eapply boundary0_back; eauto.
  Qed.
  (** nothing is there before [z] *)
  Lemma betti1_before t : ~ ole z t -> path_betti_1 (K:=K) time n z E t t 0.
  Proof.
    intros Hz. exists nat_ord, [], (fun _ _ _ => f0). split; [constructor|]. split; auto. split; [intros b []|]. split; [|intros a _ b []].
    intros e [He _]. exists (fun _ => f0). eapply B1_ext; [|apply B1_zero]. intros x y. cbn [vsum]. destruct (fscalar_dec (e x y)) as [->|Hn]; [ring|]. exfalso. apply Hz.
    apply He in Hn. destruct Hn as [[_ H]|[_ (f & Ef & Hf)]]; auto. destruct HG as [_ HG2]. apply HG2 in Ef. eapply ole_trans; [apply Ef|exact Hf].
  Qed.
  Lemma betti0_before t : ~ ole z t -> path_betti_0 (K:=K) time n z E t t 0.
  Proof.
    intros Hz. exists nat_ord, [], (fun _ _ => f0). split; [constructor|]. split; auto. split; [intros b []|]. split; [|intros a _ b []].
    intros p Hp. exists (fun _ => f0). exists (fun _ _ => f0). split; [intros x y Hn; congruence|]. intros v. cbn [vsum].
    transitivity (f0 : option K).
    - destruct (fscalar_dec (p v)) as [->|Hn]; [ring|]. apply Hp in Hn. tauto.
    - symmetry. unfold edge_bdry. apply vsum_0. intros x _. apply vsum_0. intros y _. ring.
  Qed.

  (** ** connected components *)
  Lemma walk_connected x y d : walk add z arc x y d -> weakly_connected E x y.
  Proof.
    induction 1 as [|u y d w Hw IH Ha]; [apply rst_refl|]. apply Harc in Ha. eapply rst_trans; [exact IH|]. apply rst_step. tauto.
  Qed.
  Lemma grounded_connected t x y : grounded_edge_at time z E t x y -> weakly_connected E x y.
  Proof.
    intros [[H _]|[_ (f & Ef & Hf)]]; [now apply rst_step|]. destruct Hspf as (_ & H1 & _). apply H1 in Ef. eapply walk_connected. apply Ef.
  Qed.
  Definition node (x : nat) : node_chain (K:=K) := fun v => delta (x =? v).
  Notation B0 := (boundary_0 (K:=K) time n z E).
  Lemma B0_lin t (k : option K) p p' : B0 t p -> B0 t p' -> B0 t (fun v => fadd (p v) (fmul k (p' v))).
  Proof.
    intros (e & He & E1) (e' & He' & E2). exists (fun x y => fadd (e x y) (fmul k (e' x y))). split.
    - intros x y Hn. apply lin_nz in Hn. destruct Hn; auto.
    - intros v. now rewrite edge_bdry_lin, E1, E2.
  Qed.
  Lemma B0_ext t p p' : (forall v, p v = p' v) -> B0 t p -> B0 t p'.
  Proof. intros H (e & He & E1). exists e. split; auto. intros v. now rewrite <- H. Qed.
  Lemma B0_zero t : B0 t (fun _ => f0).
  Proof.
    exists (fun _ _ => f0). split; [intros x y Hn; congruence|]. intros v. unfold edge_bdry. symmetry. apply vsum_0. intros x _. apply vsum_0. intros y _. ring.
  Qed.
  Lemma unit_bdry x y v : x < n -> y < n -> bd1 (unit x y) v = fsub (node y v) (node x v).
  Proof.
    intros Hx Hy. assert (HN : forall v, v < n -> In v (seq 0 n)) by (intros w Hw; apply in_seq; lia).
    unfold edge_bdry, unit, node. rewrite (@vsum_single K nat (seq 0 n) _ x);[ |apply seq_NoDup|auto| ].
    2:{ intros a' _ Hne. apply vsum_0. intros b' _. destruct (Nat.eqb_spec x a'); [congruence|]. cbn [andb delta]. ring. }
    rewrite (@vsum_single K nat (seq 0 n) _ y);[ |apply seq_NoDup|auto| ].
    2:{ intros b' _ Hne. destruct (Nat.eqb_spec y b'); [congruence|]. rewrite andb_false_r. cbn [andb delta]. ring. }
    rewrite !Nat.eqb_refl. cbn [andb delta]. ring.
  Qed.
  Lemma connected_boundary x y : weakly_connected E x y -> B0 z (fun v => fsub (node x v) (node y v)).
  Proof.
    induction 1 as [x y H|x|x y H IH|x y w H1 IH1 H2 IH2].
    - exists (fun a b => fmul (fopp f1) (unit x y a b)). split.
      + intros a b Hn. destruct (fscalar_dec (unit x y a b)) as [E0|Hu]; [exfalso; apply Hn; rewrite E0; ring|]. apply unit_nz in Hu. destruct Hu as [-> ->]. left. split; auto. apply ole_refl.
      + intros v. destruct (HE _ _ H) as [Hx Hy]. rewrite (@edge_bdry_ext _ (fun a b => fadd ((fun _ _ => f0) a b) (fmul (fopp f1) (unit x y a b)))) by (intros; ring).
        rewrite edge_bdry_lin, unit_bdry by auto. assert (Hz0 : bd1 (fun _ _ => f0) v = f0) by (unfold edge_bdry; apply vsum_0; intros a _; apply vsum_0; intros b _; ring).
        rewrite Hz0. ring.
    - eapply B0_ext; [|apply B0_zero]. intros v. cbv beta. ring.
    - eapply B0_ext; [|exact (B0_lin (fopp f1) (@B0_zero z) IH)]. intros v. cbv beta. ring.
    - eapply B0_ext; [|exact (B0_lin f1 IH1 IH2)]. intros v. cbv beta. ring.
  Qed.
  Lemma B0_sum t {A} (L : list A) (w : A -> option K) (p : A -> node_chain (K:=K)) : (forall x, In x L -> B0 t (p x)) -> B0 t (fun v => vsum L (fun x => fmul (w x) (p x v))).
  Proof.
    induction L as [|a L IH]; intros H; [apply B0_zero|]. cbn [vsum]. eapply B0_ext; [|exact (B0_lin (w a) (IH (fun x Hx => H x (or_intror Hx))) (H a (or_introl eq_refl)))].
    intros v. cbv beta. ring.
  Qed.

  Lemma betti0_components R : component_representatives n E R -> path_betti_0 (K:=K) time n z E z z (length R).
  Proof.
    intros (HN & HRn & Hex & Huniq).
    destruct (@list_choice nat_ord nat (fun v r => In r R /\ weakly_connected E v r) 0 (seq 0 n)) as (f & Hf).
    { intros v Hv. apply in_seq in Hv. apply Hex. lia. }
    assert (Hf' : forall v, v < n -> In (f v) R /\ weakly_connected E v (f v)) by (intros v Hv; apply Hf, in_seq; lia). clear Hf.
    exists nat_ord, R, node. split; auto. split; auto. split; [|split].
    - intros r Hr v Hn. unfold node in Hn. destruct (Nat.eqb_spec r v) as [E0|]; [|cbn [delta] in Hn; congruence]. rewrite <- E0. split; [auto|apply ole_refl].
    - intros p Hp. exists (fun r => vsum (seq 0 n) (fun v => fmul (p v) (node (f v) r))).
      eapply B0_ext; [|apply (@B0_sum z nat (seq 0 n) p (fun v w => fsub (node v w) (node (f v) w)))].
      + intros w. cbv beta.
        transitivity (fsub (vsum (seq 0 n) (fun v => fmul (p v) (node v w))) (vsum (seq 0 n) (fun v => fmul (p v) (node (f v) w)))).
        { rewrite <- vsum_sub. apply vsum_ext. intros v _. ring. }
        f_equal.
        * destruct (fscalar_dec (p w)) as [E0|Hn].
          -- rewrite E0. apply vsum_0. intros v _. unfold node. destruct (Nat.eqb_spec v w) as [->|]; [rewrite E0|cbn [delta]]; ring.
          -- apply Hp in Hn. rewrite (@vsum_single K nat _ _ w); [|apply seq_NoDup|apply in_seq; lia|].
             ++ unfold node. rewrite Nat.eqb_refl. cbn [delta]. ring.
             ++ intros v _ Hne. unfold node. destruct (Nat.eqb_spec v w); [congruence|]. cbn [delta]. ring.
        * transitivity (vsum R (fun r => vsum (seq 0 n) (fun v => fmul (p v) (fmul (node (f v) r) (node r w))))).
          -- rewrite vsum_swap. apply vsum_ext. intros v Hv. apply in_seq in Hv. rewrite vsum_mul_l. f_equal.
             rewrite (@vsum_single K nat R _ (f v)); [|auto|apply Hf'; lia|].
             ++ unfold node at 2. rewrite Nat.eqb_refl. cbn [delta]. ring.
             ++ intros r _ Hne. unfold node at 1. destruct (Nat.eqb_spec (f v) r); [congruence|]. cbn [delta]. ring.
          -- apply vsum_ext. intros r _. transitivity (fmul (node r w) (vsum (seq 0 n) (fun v => fmul (p v) (node (f v) r)))); [|ring].
             rewrite <- vsum_mul_l. apply vsum_ext. intros v _. ring.
      + intros v Hv. apply in_seq in Hv. apply connected_boundary. apply Hf'. lia.
    - intros a (e & He & Ha) r0 Hr0.
      assert (Hconn : forall x y, e x y <> f0 -> x < n -> y < n -> f x = f y).
      { intros x y Hn Hx Hy. apply He in Hn. apply grounded_connected in Hn. destruct (Hf' x Hx) as [X1 X2]. destruct (Hf' y Hy) as [Y1 Y2]. apply Huniq; auto.
        eapply rst_trans; [apply rst_sym; exact X2|]. eapply rst_trans; [exact Hn|exact Y2]. }
      assert (HfR : forall r, In r R -> f r = r).
      { intros r Hr. destruct (Hf' r (HRn r Hr)) as [X1 X2]. symmetry. apply Huniq; auto. }
      transitivity (vsum (seq 0 n) (fun v => fmul (delta (f v =? r0)) (vsum R (fun b => fmul (a b) (node b v))))).
      + transitivity (vsum R (fun b => vsum (seq 0 n) (fun v => fmul (delta (f v =? r0)) (fmul (a b) (node b v))))).
        * rewrite (@vsum_single K nat R _ r0); auto.
          -- rewrite (@vsum_single K nat (seq 0 n) _ r0); [|apply seq_NoDup|apply in_seq; specialize (HRn r0 Hr0); lia|].
             ++ rewrite HfR by auto. unfold node. rewrite !Nat.eqb_refl. cbn [delta]. ring.
             ++ intros v _ Hne. unfold node. destruct (Nat.eqb_spec r0 v); [congruence|]. cbn [delta]. ring.
          -- intros b Hb Hne. apply vsum_0. intros v _. unfold node. destruct (Nat.eqb_spec b v) as [<-|]; [|cbn [delta]; ring]. rewrite HfR by auto.
             destruct (Nat.eqb_spec b r0); [contradiction|]. cbn [delta]. ring.
        * rewrite vsum_swap. apply vsum_ext. intros v _. apply vsum_mul_l.
      + transitivity (vsum (seq 0 n) (fun v => fmul (delta (f v =? r0)) (bd1 e v))); [apply vsum_ext; intros v _; now rewrite Ha|].
        unfold edge_bdry.
        transitivity (vsum (seq 0 n) (fun x => vsum (seq 0 n) (fun y => fmul (e x y) (vsum (seq 0 n) (fun v => fmul (delta (f v =? r0)) (fsub (delta (y =? v)) (delta (x =? v)))))))).
        * transitivity (vsum (seq 0 n) (fun v => vsum (seq 0 n) (fun x => vsum (seq 0 n) (fun y => fmul (e x y) (fmul (delta (f v =? r0)) (fsub (delta (y =? v)) (delta (x =? v)))))))).
          { apply vsum_ext. intros v _. rewrite <- vsum_mul_l. apply vsum_ext. intros x _. rewrite <- vsum_mul_l. apply vsum_ext. intros y _. ring. }
          rewrite vsum_swap. apply vsum_ext. intros x _. rewrite vsum_swap. apply vsum_ext. intros y _. apply vsum_mul_l.
        * apply vsum_0. intros x Hx. apply vsum_0. intros y Hy. apply in_seq in Hx, Hy. destruct (fscalar_dec (e x y)) as [->|Hn]; [ring|].
          assert (Hpick : forall u, u < n -> vsum (seq 0 n) (fun v => fmul (delta (f v =? r0)) (delta (u =? v))) = (delta (f u =? r0) : option K)).
          { intros u Hu. rewrite (@vsum_single K nat (seq 0 n) _ u); [|apply seq_NoDup|apply in_seq; lia|].
            - rewrite Nat.eqb_refl. cbn [delta]. ring.
            - intros v _ Hne. destruct (Nat.eqb_spec u v); [congruence|]. cbn [delta]. ring. }
          assert (E0 : vsum (seq 0 n) (fun v => fmul (delta (f v =? r0)) (fsub (delta (y =? v)) (delta (x =? v)))) = (f0 : option K)).
          { rewrite (@vsum_ext K nat (seq 0 n) _ (fun v => fsub (fmul (delta (f v =? r0)) (delta (y =? v))) (fmul (delta (f v =? r0)) (delta (x =? v))))) by (intros; ring).
            rewrite vsum_sub, !Hpick by lia. rewrite (Hconn x y) by (auto; lia). ring. }
          rewrite E0. ring.
  Qed.
End Chains.

(** ** representatives of the components exist *)
Lemma length_remove_one (R : list nat) r : NoDup R -> In r R -> S (length (filter (fun x => negb (x =? r)) R)) = length R.
Proof.
  induction R as [|a R IH]; intros HN Hr; [destruct Hr|]. apply NoDup_cons_iff in HN. destruct HN as [Ha HN]. cbn [filter]. destruct (Nat.eqb_spec a r) as [->|Hne]; cbn [negb length].
  - f_equal. clear IH Hr HN. induction R as [|b R IH]; auto. cbn [filter]. destruct (Nat.eqb_spec b r) as [->|]; [exfalso; apply Ha; now left|]. cbn [negb length]. f_equal. apply IH. intros H. apply Ha. now right.
  - f_equal. apply IH; auto. destruct Hr; [contradiction|auto].
Qed.
Lemma representatives_step n E R x y : component_representatives n E R -> x < n -> y < n ->
  exists R', component_representatives n ((x, y) :: E) R' /\
    ((weakly_connected E x y /\ length R' = length R) \/ (~ weakly_connected E x y /\ S (length R') = length R)).
Proof.
  intros (HN & Hlt & Hex & Huniq) Hx Hy.
    destruct (Hex x Hx) as (rx & Hrx & Cx). destruct (Hex y Hy) as (ry & Hry & Cy).
    assert (Hincl : forall u v, weakly_connected E u v -> weakly_connected ((x, y) :: E) u v).
    { intros u v H. induction H; [apply rst_step; now right|apply rst_refl|now apply rst_sym|eapply rst_trans; eauto]. }
    assert (Hxy : weakly_connected ((x, y) :: E) rx ry).
    { eapply rst_trans; [apply rst_sym, Hincl; exact Cx|]. eapply rst_trans; [|apply Hincl; exact Cy]. apply rst_step. now left. }
    assert (Hdec : forall u v, weakly_connected ((x, y) :: E) u v -> weakly_connected E u v \/ (weakly_connected E u rx /\ weakly_connected E v ry) \/ (weakly_connected E u ry /\ weakly_connected E v rx)).
    { intros u v H. induction H as [u v [[= <- <-]|H]|u|u v H IH1|u v w H1 IH1 H2 IH2].
      - right. left. auto.
      - left. now apply rst_step.
      - left. apply rst_refl.
      - destruct IH1 as [H1|[[H1 H2]|[H1 H2]]]; [left; now apply rst_sym|right; right; auto|right; left; auto].
      - assert (T : forall a b c, weakly_connected E a b -> weakly_connected E b c -> weakly_connected E a c) by (intros; eapply rst_trans; eauto).
        assert (S : forall a b, weakly_connected E a b -> weakly_connected E b a) by (intros; now apply rst_sym).
        destruct IH1 as [A|[[A B]|[A B]]]; destruct IH2 as [C|[[C D]|[C D]]]; eauto 6. }
    destruct (Nat.eq_dec rx ry) as [Eq|Hne].
    + exists R. split.
      * split; auto. split; auto. split.
        -- intros v Hv. destruct (Hex v Hv) as (r & Hr & C). exists r. auto.
        -- intros r r' Hr Hr' H. apply Hdec in H. destruct H as [H|[[H1 H2]|[H1 H2]]]; [auto| |].
           ++ transitivity rx; [auto|]. symmetry. rewrite Eq. auto.
           ++ transitivity ry; [auto|]. symmetry. rewrite <- Eq. auto.
      * left. split; auto. rewrite Eq in Cx. eapply rst_trans; [exact Cx|]. apply rst_sym. exact Cy.
    + exists (filter (fun r => negb (r =? ry)) R). split.
      * split; [now apply NoDup_filter|]. split; [intros r Hr; apply filter_In in Hr; apply Hlt; tauto|]. split.
        -- intros v Hv. destruct (Hex v Hv) as (r & Hr & C). destruct (Nat.eq_dec r ry) as [->|Hr'].
           ++ exists rx. split; [apply filter_In; split; auto; apply negb_true_iff, Nat.eqb_neq; auto|]. eapply rst_trans; [apply Hincl; exact C|]. now apply rst_sym.
           ++ exists r. split; [apply filter_In; split; auto; apply negb_true_iff, Nat.eqb_neq; auto|auto].
        -- intros r r' Hr Hr' H. apply filter_In in Hr, Hr'. destruct Hr as [Hr Hr1]. destruct Hr' as [Hr' Hr1']. apply negb_true_iff, Nat.eqb_neq in Hr1, Hr1'.
           apply Hdec in H. destruct H as [H|[[H1 H2]|[H1 H2]]]; [auto| |]; exfalso.
           ++ apply Hr1'. auto.
           ++ apply Hr1. auto.
      * right. split; [|now apply length_remove_one]. intros H. apply Hne. apply Huniq; auto. eapply rst_trans; [apply rst_sym; exact Cx|]. eapply rst_trans; [exact H|exact Cy].
Qed.
Lemma representatives_nil n : component_representatives n [] (seq 0 n).
Proof.
  split; [apply seq_NoDup|]. split; [intros r Hr; apply in_seq in Hr; lia|]. split.
  - intros v Hv. exists v. split; [apply in_seq; lia|apply rst_refl].
  - intros r r' _ _ H. induction H as [? ? []| | |]; auto; congruence.
Qed.
Lemma representatives_exist n E : (forall s t, In (s, t) E -> s < n /\ t < n) -> exists R, component_representatives n E R.
Proof.
  induction E as [|[x y] E IH]; intros HE; [exists (seq 0 n); apply representatives_nil|].
  destruct IH as (R & HR); [intros s t H; apply HE; now right|]. destruct (HE x y (or_introl eq_refl)) as [Hx Hy].
  destruct (representatives_step HR Hx Hy) as (R' & HR' & _). eauto.
Qed.

(** ** the circuit rank *)
Section Circuit.
  Context {K : coeffT}.
  Add Field KFWC : (F_field K).
  Variable n : nat.
  Notation bd1 e := (edge_bdry (K:=K) n e).

  Lemma connected_chain E x y : (forall s t, In (s, t) E -> s < n /\ t < n) -> weakly_connected E x y ->
    exists c : edge_chain (K:=K), in_E E c /\ forall v, bd1 c v = fsub (node x v) (node y v).
  Proof.
    intros HE H. destruct (connected_boundary (K:=K) (F:=nat_ord) (fun _ _ => None) (0 : nat_ord) HE H) as (c & Hc & Hv). exists c. split; [|intros v; now rewrite Hv].
    intros a b Hn. apply Hc in Hn. destruct Hn as [[H1 _]|[_ (f & Ef & _)]]; [auto|discriminate].
  Qed.
  (** a cycle does not use an edge that joins two components *)
  Lemma bridge_unused E x y (e : edge_chain (K:=K)) : (forall s t, In (s, t) E -> s < n /\ t < n) -> x < n -> y < n ->
    ~ weakly_connected E x y -> in_E ((x, y) :: E) e -> (forall v, bd1 e v = f0) -> e x y = f0.
  Proof.
    intros HE Hx Hy Hnc He Hcyc. destruct (representatives_exist E HE) as (R & HN & HRn & Hex & Huniq).
    destruct (@list_choice nat_ord nat (fun v r => In r R /\ weakly_connected E v r) 0 (seq 0 n)) as (f & Hf).
    { intros v Hv. apply in_seq in Hv. apply Hex. lia. }
    assert (Hf' : forall v, v < n -> In (f v) R /\ weakly_connected E v (f v)) by (intros v Hv; apply Hf, in_seq; lia). clear Hf.
    assert (Hfxy : f x <> f y).
    { intros Eq. apply Hnc. destruct (Hf' x Hx) as [_ X]. destruct (Hf' y Hy) as [_ Y]. rewrite Eq in X. eapply rst_trans; [exact X|]. now apply rst_sym. }
    assert (Hconn : forall a b, In (a, b) E -> f a = f b).
    { intros a b Hab. destruct (HE _ _ Hab) as [La Lb]. destruct (Hf' a La) as [A1 A2]. destruct (Hf' b Lb) as [B1 B2]. apply Huniq; auto.
      eapply rst_trans; [apply rst_sym; exact A2|]. eapply rst_trans; [|exact B2]. now apply rst_step. }
    assert (Hpick : forall u, u < n -> vsum (seq 0 n) (fun v => fmul (delta (f v =? f y)) (delta (u =? v))) = (delta (f u =? f y) : option K)).
    { intros u Hu. rewrite (@vsum_single K nat (seq 0 n) _ u); [|apply seq_NoDup|apply in_seq; lia|].
      - rewrite Nat.eqb_refl. cbn [delta]. ring.
      - intros v _ Hne. destruct (Nat.eqb_spec u v); [congruence|]. cbn [delta]. ring. }
    transitivity (vsum (seq 0 n) (fun v => fmul (delta (f v =? f y)) (bd1 e v))).
    2:{ apply vsum_0. intros v _. rewrite Hcyc. ring. }
    symmetry. unfold edge_bdry.
    transitivity (vsum (seq 0 n) (fun a => vsum (seq 0 n) (fun b => fmul (e a b) (vsum (seq 0 n) (fun v => fmul (delta (f v =? f y)) (fsub (delta (b =? v)) (delta (a =? v)))))))).
    { transitivity (vsum (seq 0 n) (fun v => vsum (seq 0 n) (fun a => vsum (seq 0 n) (fun b => fmul (e a b) (fmul (delta (f v =? f y)) (fsub (delta (b =? v)) (delta (a =? v)))))))).
      { apply vsum_ext. intros v _. rewrite <- vsum_mul_l. apply vsum_ext. intros a _. rewrite <- vsum_mul_l. apply vsum_ext. intros b _. ring. }
      rewrite vsum_swap. apply vsum_ext. intros a _. rewrite vsum_swap. apply vsum_ext. intros b _. apply vsum_mul_l. }
    assert (E1 : forall a b, a < n -> b < n -> vsum (seq 0 n) (fun v => fmul (delta (f v =? f y)) (fsub (delta (b =? v)) (delta (a =? v)))) = (fsub (delta (f b =? f y)) (delta (f a =? f y)) : option K)).
    { intros a b Ha Hb. rewrite (@vsum_ext K nat (seq 0 n) _ (fun v => fsub (fmul (delta (f v =? f y)) (delta (b =? v))) (fmul (delta (f v =? f y)) (delta (a =? v))))) by (intros; ring).
      now rewrite vsum_sub, !Hpick by auto. }
    assert (E2 : forall a b, a < n -> b < n -> (a, b) <> (x, y) -> fmul (e a b) (vsum (seq 0 n) (fun v => fmul (delta (f v =? f y)) (fsub (delta (b =? v)) (delta (a =? v))))) = f0).
    { intros a b Ha Hb Hne. rewrite E1 by auto. destruct (fscalar_dec (e a b)) as [->|Hn]; [ring|]. apply He in Hn. destruct Hn as [Hn|Hn]; [congruence|]. rewrite (Hconn _ _ Hn). ring. }
    rewrite (@vsum_single K nat (seq 0 n) _ x); [|apply seq_NoDup|apply in_seq; lia|].
    2:{ intros a Ha Hne. apply vsum_0. intros b Hb. apply in_seq in Ha, Hb. apply E2; [lia|lia|congruence]. }
    rewrite (@vsum_single K nat (seq 0 n) _ y); [|apply seq_NoDup|apply in_seq; lia|].
    2:{ intros b Hb Hne. apply in_seq in Hb. apply E2; [lia|lia|congruence]. }
    rewrite E1 by auto. rewrite Nat.eqb_refl. destruct (Nat.eqb_spec (f x) (f y)); [contradiction|]. cbn [delta]. ring.
  Qed.

  Lemma circuit_basis E : NoDup E -> (forall s t, In (s, t) E -> s < n /\ t < n) ->
    exists R k (Z : nat -> edge_chain (K:=K)), component_representatives n E R /\ k + n = length E + length R /\
      (forall i, i < k -> in_E E (Z i) /\ forall v, bd1 (Z i) v = f0) /\
      (forall e, in_E E e -> (forall v, bd1 e v = f0) -> exists a : nat -> option K, forall x y, e x y = vsum (seq 0 k) (fun i => fmul (a i) (Z i x y))) /\
      (forall a : nat -> option K, (forall x y, vsum (seq 0 k) (fun i => fmul (a i) (Z i x y)) = f0) -> forall i, i < k -> a i = f0).
  Proof.
    induction E as [|[x y] E IH]; intros HN HE.
    - exists (seq 0 n), 0, (fun _ _ _ => f0). split; [apply representatives_nil|]. split; [now rewrite seq_length|]. split; [intros i Hi; lia|]. split; [|intros a _ i Hi; lia].
      intros e He _. exists (fun _ => f0). intros a b. cbn [seq vsum]. destruct (fscalar_dec (e a b)); auto. exfalso. eapply (He a b); auto.
    - apply NoDup_cons_iff in HN. destruct HN as [Hxy HN]. assert (HE' : forall s t, In (s, t) E -> s < n /\ t < n) by (intros s t H; apply HE; now right).
      destruct (HE x y (or_introl eq_refl)) as [Hx Hy]. destruct (IH HN HE') as (R & k & Z & HR & Hk & H1 & H2 & H3).
      destruct (representatives_step HR Hx Hy) as (R' & HR' & [[Hc HL]|[Hc HL]]).
      + destruct (connected_chain HE' Hc) as (c & Hin & Hbd).
        set (new := fun a b => fadd (unit x y a b) (fmul f1 (c a b))). set (Z' := fun i => if i <? k then Z i else new).
        assert (Hold : forall i, In i (seq 0 k) -> Z' i = Z i) by (intros i Hi; apply in_seq in Hi; unfold Z'; destruct (Nat.ltb_spec i k); [auto|lia]).
        assert (Hnew : Z' k = new) by (unfold Z'; now rewrite Nat.ltb_irrefl).
        assert (Hcxy : c x y = f0) by (destruct (fscalar_dec (c x y)); auto; exfalso; apply Hxy; auto).
        assert (Hnxy : new x y = f1) by (unfold new, unit; rewrite Hcxy, !Nat.eqb_refl; cbn [andb delta]; ring).
        assert (Hncyc : forall v, bd1 new v = f0) by (intros v; unfold new; rewrite edge_bdry_lin, unit_bdry, Hbd by auto; ring).
        assert (Hnin : in_E ((x, y) :: E) new).
        { intros a b Hn. apply lin_nz in Hn. destruct Hn as [Hn|Hn]; [apply unit_nz in Hn; destruct Hn as [-> ->]; now left|right; auto]. }
        assert (Hsum : forall (a : nat -> option K) p q, vsum (seq 0 (S k)) (fun i => fmul (a i) (Z' i p q)) = fadd (vsum (seq 0 k) (fun i => fmul (a i) (Z i p q))) (fmul (a k) (new p q))).
        { intros a p q. rewrite seq_S. cbn [Nat.add]. rewrite vsum_app. cbn [vsum]. rewrite Hnew. rewrite (@vsum_ext K nat (seq 0 k) _ (fun i => fmul (a i) (Z i p q))) by (intros i Hi; now rewrite Hold). ring. }
        assert (HZxy : forall i, i < k -> Z i x y = f0).
        { intros i Hi. destruct (fscalar_dec (Z i x y)) as [|Hn]; auto. exfalso. apply Hxy. apply (H1 i Hi). auto. }
        exists R', (S k), Z'. split; auto. split; [cbn [length]; lia|]. split; [|split].
        * intros i Hi. destruct (Nat.eq_dec i k) as [->|Hne]; [rewrite Hnew; auto|]. rewrite Hold by (apply in_seq; lia). destruct (H1 i ltac:(lia)) as [A B]. split; auto. intros a b Hn. right. auto.
        * intros e He Hcyc. set (e' := fun a b => fadd (e a b) (fmul (fopp (e x y)) (new a b))).
          destruct (H2 e') as (w & Hw).
          -- intros a b Hn. unfold e' in Hn. destruct (Nat.eq_dec a x) as [->|Hax].
             ++ destruct (Nat.eq_dec b y) as [->|Hby]; [exfalso; apply Hn; rewrite Hnxy; ring|]. apply lin_nz in Hn. destruct Hn as [Hn|Hn]; [apply He in Hn|apply Hnin in Hn]; destruct Hn as [Hn|Hn]; congruence.
             ++ apply lin_nz in Hn. destruct Hn as [Hn|Hn]; [apply He in Hn|apply Hnin in Hn]; destruct Hn as [Hn|Hn]; congruence.
          -- intros v. unfold e'. rewrite edge_bdry_lin, Hcyc, Hncyc. ring.
          -- exists (fun i => if i =? k then e x y else w i). intros a b. rewrite Hsum, Nat.eqb_refl.
             rewrite (@vsum_ext K nat (seq 0 k) _ (fun i => fmul (w i) (Z i a b))) by (intros i Hi; apply in_seq in Hi; destruct (Nat.eqb_spec i k); [lia|reflexivity]).
             rewrite <- Hw. unfold e'. ring.
        * intros a Ha. assert (Hak : a k = f0).
          { specialize (Ha x y). rewrite Hsum, Hnxy in Ha. rewrite vsum_0 in Ha by (intros i Hi; apply in_seq in Hi; rewrite HZxy by lia; ring). rewrite <- Ha. ring. }
          intros i Hi. destruct (Nat.eq_dec i k) as [->|Hne]; auto. apply H3; [|lia]. intros p q. specialize (Ha p q). rewrite Hsum, Hak in Ha. rewrite <- Ha. ring.
      + exists R', k, Z. split; auto. split; [cbn [length]; lia|]. split; [|split; auto].
        * intros i Hi. destruct (H1 i Hi) as [A B]. split; auto. intros a b Hn. right. auto.
        * intros e He Hcyc. apply H2; auto. intros a b Hn. pose proof (He _ _ Hn) as [[= <- <-]|H]; auto. exfalso. apply Hn. apply (@bridge_unused E x y e); auto.
  Qed.

  (** at time [z] nothing bounds when all the times are later *)
  Lemma betti1_start {F : ordT} (time : nat -> nat -> option F) z E : NoDup E -> (forall s t, In (s, t) E -> s < n /\ t < n) ->
    (forall x y f, time x y = Some f -> olt z f) ->
    exists R k, component_representatives n E R /\ k + n = length E + length R /\ path_betti_1 (K:=K) time n z E z z k.
  Proof.
    intros HN HE Hpos. destruct (circuit_basis HN HE) as (R & k & Z & HR & Hk & H1 & H2 & H3). exists R, k. split; auto. split; auto.
    assert (Hno : forall x y, ~ edge_at time z x y).
    { intros x y (f & Ef & Hf). apply Hpos in Ef. apply olt_not_le in Ef. contradiction. }
    exists nat_ord, (seq 0 k), Z. split; [apply seq_NoDup|]. split; [apply seq_length|]. split; [|split].
    - intros i Hi. apply in_seq in Hi. destruct (H1 i ltac:(lia)) as [A B]. split; auto. intros x y Hn. left. split; auto. apply ole_refl.
    - intros e [He Hcyc]. destruct (H2 e) as (a & Ha); auto.
      + intros x y Hn. apply He in Hn. destruct Hn as [[Hn _]|[_ Hn]]; auto. exfalso. eapply Hno; eauto.
      + exists a. eapply B1_ext; [|apply B1_zero]. intros x y. cbv beta. transitivity (fsub (e x y) (e x y)); [ring|]. f_equal. exact (Ha x y).
    - intros a (u & [Hu _] & Hb) i Hi. apply in_seq in Hi. apply H3; [|lia]. intros x y. rewrite Hb. unfold path_bdry. apply vsum_0. intros p _. apply vsum_0. intros q _. apply vsum_0. intros r _.
      destruct (fscalar_dec (u p q r)) as [->|Hn]; [ring|]. exfalso. apply Hu in Hn. destruct Hn as [Hn _]. eapply Hno; eauto.
  Qed.
End Circuit.
