(** The directed cycle: distances, and the time at which it becomes a boundary. *)
From Verif Require Import Base Fields FieldsFacts Spec LinAlg GrpphCells Grpph SpecGrpph SpecPath SpecWeighted GrpphColumns PathBasis PathBetti Weighted WeightedRun PropGrpphExamples.
From Coq Require Import Ring Field Permutation Lia.
Set Implicit Arguments.

(** ** Chains *)
Section Chains.
  Context {K : coeffT} {F : ordT}.
  Add Field KFCy : (F_field K).
  Variables (time : nat -> nat -> option F) (n : nat).
  Hypothesis Hends : forall x y f, time x y = Some f -> x < n /\ y < n /\ x <> y.
  Notation B1 := (boundary_1 (K:=K) time n).

  Lemma path_B1 t a b c : edge_at time t a b -> edge_at time t b c -> (a <> c -> edge_at time t a c) -> B1 t (fun x y => path_boundary a b c x y).
  Proof.
    intros Hab Hbc Hac. assert (Hlt : a < n /\ b < n /\ c < n).
    { destruct Hab as (f & E1 & _). destruct Hbc as (g & E2 & _). apply Hends in E1, E2. tauto. }
    assert (Hb : forall x y, path_bdry n (fun a' b' c' => delta ((a =? a') && (b =? b') && (c =? c'))) x y = path_boundary (K:=K) a b c x y) by (intros x y; apply path_bdry_single; tauto).
    exists (fun a' b' c' => delta ((a =? a') && (b =? b') && (c =? c'))). split; [|intros x y; now rewrite Hb]. split.
    - intros a' b' c' Hn. apply delta3 in Hn. destruct Hn as (<- & <- & <-). auto.
    - intros x y Hn. rewrite Hb in Hn. unfold path_boundary in Hn.
      destruct (Nat.eqb_spec a c) as [<-|Hne].
      + destruct (Nat.eqb_spec b x), (Nat.eqb_spec a y), (Nat.eqb_spec a x), (Nat.eqb_spec b y); subst; auto; cbn [andb delta] in Hn; exfalso; apply Hn; ring.
      + destruct (Nat.eqb_spec b x), (Nat.eqb_spec c y), (Nat.eqb_spec a x), (Nat.eqb_spec b y); subst; auto; cbn [andb delta] in Hn; exfalso; apply Hn; ring.
  Qed.

  (** a weight on edges, extended to chains *)
  Definition evaluate (w : nat -> nat -> option K) (e : edge_chain (K:=K)) : option K := vsum (seq 0 n) (fun x => vsum (seq 0 n) (fun y => fmul (w x y) (e x y))).
  Lemma evaluate_bdry w u : evaluate w (path_bdry n u) =
    vsum (seq 0 n) (fun a => vsum (seq 0 n) (fun b => vsum (seq 0 n) (fun c => fmul (u a b c) (evaluate w (fun x y => path_boundary a b c x y))))).
  Proof.
    unfold evaluate.
    transitivity (vsum (seq 0 n) (fun x => vsum (seq 0 n) (fun y => vsum (seq 0 n) (fun a => vsum (seq 0 n) (fun b => vsum (seq 0 n) (fun c => fmul (u a b c) (fmul (w x y) (path_boundary a b c x y)))))))).
    { apply vsum_ext. intros x _. apply vsum_ext. intros y _. unfold path_bdry.
      rewrite <- vsum_mul_l. apply vsum_ext. intros a _. rewrite <- vsum_mul_l. apply vsum_ext. intros b _. rewrite <- vsum_mul_l. apply vsum_ext. intros c _. ring. }
    transitivity (vsum (seq 0 n) (fun x => vsum (seq 0 n) (fun a => vsum (seq 0 n) (fun b => vsum (seq 0 n) (fun c => fmul (u a b c) (vsum (seq 0 n) (fun y => fmul (w x y) (path_boundary a b c x y)))))))).
    { apply vsum_ext. intros x _. rewrite vsum_swap. apply vsum_ext. intros a _. rewrite vsum_swap. apply vsum_ext. intros b _. rewrite vsum_swap. apply vsum_ext. intros c _. apply vsum_mul_l. }
    rewrite vsum_swap. apply vsum_ext. intros a _. rewrite vsum_swap. apply vsum_ext. intros b _. rewrite vsum_swap. apply vsum_ext. intros c _. apply vsum_mul_l.
  Qed.
  Lemma evaluate_delta w a b : a < n -> b < n -> evaluate w (fun x y => delta ((a =? x) && (b =? y))) = w a b.
  Proof.
    intros Ha Hb. unfold evaluate. rewrite (@vsum_single K nat _ _ a); [|apply seq_NoDup|apply in_seq; lia|].
    - rewrite (@vsum_single K nat _ _ b); [|apply seq_NoDup|apply in_seq; lia|].
      + rewrite !Nat.eqb_refl. cbn [andb delta]. ring.
      + intros y _ Hy. destruct (Nat.eqb_spec b y); [congruence|]. rewrite andb_false_r. cbn [delta]. ring.
    - intros x _ Hx. apply vsum_0. intros y _. destruct (Nat.eqb_spec a x); [congruence|]. cbn [andb delta]. ring.
  Qed.
  Lemma evaluate_lin w k e e' : evaluate w (fun x y => fadd (e x y) (fmul k (e' x y))) = fadd (evaluate w e) (fmul k (evaluate w e')).
  Proof.
    unfold evaluate. rewrite <- vsum_mul_l, <- vsum_add. apply vsum_ext. intros x _. rewrite <- vsum_mul_l, <- vsum_add. apply vsum_ext. intros y _. ring.
  Qed.
  Lemma evaluate_ext w e e' : (forall x y, e x y = e' x y) -> evaluate w e = evaluate w e'.
  Proof. intros H. unfold evaluate. apply vsum_ext. intros x _. apply vsum_ext. intros y _. now rewrite H. Qed.
  Lemma evaluate_path w a b c : a < n -> b < n -> c < n ->
    evaluate w (fun x y => path_boundary a b c x y) = fadd (fsub (w b c) (if a =? c then f0 else w a c)) (w a b).
  Proof.
    intros Ha Hb Hc. unfold path_boundary. destruct (Nat.eqb_spec a c) as [Hac|Hac].
    - rewrite (@evaluate_ext w _ (fun x y => fadd (delta ((b =? x) && (c =? y))) (fmul f1 (delta ((a =? x) && (b =? y)))))) by (intros; ring).
      rewrite evaluate_lin, !evaluate_delta by auto. ring.
    - rewrite (@evaluate_ext w _ (fun x y => fadd ((fun x y => fadd (delta ((b =? x) && (c =? y))) (fmul f1 (delta ((a =? x) && (b =? y))))) x y) (fmul (fopp f1) (delta ((a =? x) && (c =? y)))))) by (intros; ring).
      rewrite !evaluate_lin, !evaluate_delta by auto. ring.
  Qed.
  (** a weight that adds up along the two-edge paths present at time [t] vanishes on boundaries *)
  Lemma cocycle_B1 w t e : (forall a b c, edge_at time t a b -> edge_at time t b c -> fadd (fsub (w b c) (if a =? c then f0 else w a c)) (w a b) = f0) ->
    B1 t e -> evaluate w e = f0.
  Proof.
    intros Hw (u & [Hu _] & He). rewrite (@evaluate_ext w _ _ He), evaluate_bdry. apply vsum_0. intros a Ha. apply vsum_0. intros b Hb. apply vsum_0. intros c Hc. apply in_seq in Ha, Hb, Hc.
    destruct (fscalar_dec (u a b c)) as [->|Hn]; [ring|]. destruct (Hu _ _ _ Hn). rewrite evaluate_path by lia. rewrite Hw by auto. ring.
  Qed.
End Chains.

(** ** Distances on the directed cycle *)
(** the sum of [k] weights [one] *)
Fixpoint total {F : ordT} (add : F -> F -> F) (z one : F) (k : nat) : F := match k with O => z | S k => add (total add z one k) one end.

Section Cycle.
  Context {F : ordT} (add : F -> F -> F) (z one inf : F) (N : nat).
  Hypothesis HN1 : 1 < N.
  Hypothesis Hone : olt z one.
  Hypothesis Hfin : olt one inf.
  Hypothesis Hadd : nonneg_add add z.
  Notation edges := (cycle_digraph one N).
  Notation arc := (finite_edge_of inf edges).
  Notation tot := (total add z one).

  Lemma total_nonneg k : ole z (tot k).
  Proof. induction k as [|k IH]; [apply ole_refl|]. cbn [total]. eapply ole_trans; [exact IH|]. apply Hadd; auto. now apply olt_le. Qed.
  Lemma total_mono j k : j <= k -> ole (tot j) (tot k).
  Proof.
    induction 1 as [|k _ IH]; [apply ole_refl|]. cbn [total]. eapply ole_trans; [exact IH|]. apply Hadd; [apply total_nonneg|now apply olt_le].
  Qed.
  Lemma walk_steps x y d : walk add z arc x y d -> x < N -> exists k, d = tot k /\ y = (x + k) mod N.
  Proof.
    induction 1 as [|u y d w H IH [Ha _]]; intros Hx.
    - exists 0. split; auto. rewrite Nat.add_0_r, Nat.mod_small; auto.
    - apply cycle_in in Ha. destruct Ha as (Hu & -> & ->). destruct (IH Hx) as (k & -> & ->). exists (S k). split; auto.
      rewrite Nat.add_mod_idemp_l by lia. f_equal. lia.
  Qed.
  Lemma steps_walk x k : x < N -> walk add z arc x ((x + k) mod N) (tot k).
  Proof.
    intros Hx. induction k as [|k IH]; [rewrite Nat.add_0_r, Nat.mod_small by auto; constructor|]. cbn [total]. econstructor; [exact IH|]. split; auto.
    apply cycle_in. split; [apply Nat.mod_upper_bound; lia|]. split; auto. rewrite Nat.add_mod_idemp_l by lia. f_equal. lia.
  Qed.
  (** the number of steps from [x] to [y] *)
  Definition gap (x y : nat) : nat := if x <=? y then y - x else y + N - x.
  Lemma gap_lt x y : x < N -> y < N -> gap x y < N /\ y = (x + gap x y) mod N.
  Proof.
    intros Hx Hy. unfold gap. destruct (Nat.leb_spec x y) as [H|H].
    - split; [lia|]. rewrite Nat.mod_small by lia. lia.
    - split; [lia|]. replace (x + (y + N - x)) with (y + 1 * N) by lia. rewrite Nat.mod_add by lia. now rewrite Nat.mod_small.
  Qed.
  Lemma gap_min x y k : x < N -> y = (x + k) mod N -> gap x y <= k.
  Proof.
    intros Hx ->. pose proof (Nat.div_mod (x + k) N ltac:(lia)) as E. pose proof (Nat.mod_upper_bound (x + k) N ltac:(lia)) as H. revert E H. generalize ((x + k) mod N) ((x + k) / N). intros y q E H.
    unfold gap. destruct (Nat.leb_spec x y); [nia|]. destruct q as [|q]; [lia|]. nia.
  Qed.
  Lemma cycle_shortest x y : x < N -> y < N -> shortest add z arc x y (tot (gap x y)).
  Proof.
    intros Hx Hy. destruct (gap_lt Hx Hy) as [_ E]. split; [rewrite E at 1; now apply steps_walk|].
    intros d Hd. apply walk_steps in Hd; auto. destruct Hd as (k & -> & E'). apply total_mono. now apply gap_min.
  Qed.
  Lemma cycle_no_overflow : olt (tot (N - 1)) inf -> no_overflow add z inf edges.
  Proof.
    intros Hi x y d Hd. assert (Hz : olt z inf) by (eapply olt_trans; eauto). destruct (Nat.lt_ge_cases x N) as [Hx|Hx].
    - destruct (walk_steps (proj1 Hd) Hx) as (k & _ & Ey). assert (Hy : y < N) by (rewrite Ey; apply Nat.mod_upper_bound; lia).
      rewrite (shortest_unique Hd (cycle_shortest Hx Hy)). eapply ole_lt_trans; [|exact Hi]. apply total_mono. destruct (gap_lt Hx Hy). lia.
    - destruct Hd as [Hw _]. assert (E : x = y /\ d = z); [|destruct E as [_ ->]; auto]. clear - Hw Hx. induction Hw as [|u y d w Hw [<- _] [Ha _]]; auto. apply cycle_in in Ha. lia.
  Qed.

  Variable time : nat -> nat -> option F.
  Hypothesis Hspf : shortest_path_filtration add z arc time.
  Lemma cycle_time x y : x < N -> y < N -> x <> y -> time x y = Some (tot (gap x y)).
  Proof.
    intros Hx Hy Hne. destruct Hspf as (_ & H1 & H2). destruct (time x y) as [d|] eqn:E.
    - f_equal. exact (shortest_unique (H1 _ _ _ E) (cycle_shortest Hx Hy)).
    - exfalso. exact (H2 _ _ Hne E _ (proj1 (cycle_shortest Hx Hy))).
  Qed.
  Lemma cycle_time_inv x y f : time x y = Some f -> x < N /\ y < N /\ x <> y.
  Proof.
    intros E. destruct Hspf as (H0 & H1 & _). assert (Hne : x <> y) by (intros ->; rewrite H0 in E; discriminate). apply H1 in E. destruct E as [Hw _].
    assert (Hends : forall u v w, arc u v w -> u < N /\ v < N).
    { intros u v w [Ha _]. apply cycle_in in Ha. destruct Ha as (Hu & -> & _). split; auto. apply Nat.mod_upper_bound. lia. }
    destruct (@walk_vertices _ add z arc N x y f Hends Hw) as [E|[Hx Hy]]; auto; contradiction.
  Qed.
  Lemma cycle_edge_at t x k : x < N -> 0 < k -> k < N -> ole (tot k) t -> edge_at time t x ((x + k) mod N).
  Proof.
    intros Hx Hk HkN Ht. assert (Hy : (x + k) mod N < N) by (apply Nat.mod_upper_bound; lia).
    assert (Hne : x <> (x + k) mod N).
    { intros E. pose proof (Nat.div_mod (x + k) N ltac:(lia)) as D. rewrite <- E in D. revert D. generalize ((x + k) / N). intros q D. destruct q as [|[|q]]; nia. }
    exists (tot (gap x ((x + k) mod N))). split; [now apply cycle_time|]. eapply ole_trans; [|exact Ht]. apply total_mono. now apply gap_min.
  Qed.

  Section Boundaries.
    Context {K : coeffT}.
    Add Field KFCy2 : (F_field K).
    Notation B1 := (boundary_1 (K:=K) time N).
    (** the path of [k] edges from [x] *)
    Definition arcs (x k : nat) : edge_chain (K:=K) := fun a b => vsum (seq 0 k) (fun i => delta (((x + i) mod N =? a) && ((x + i + 1) mod N =? b))).
    Lemma arcs_homologous t x : x < N -> forall k, S k < N -> ole (tot (S k)) t ->
      B1 t (fun a b => fsub (delta ((x =? a) && ((x + S k) mod N =? b))) (arcs x (S k) a b)).
    Proof.
      intros Hx. induction k as [|k IH]; intros HkN Ht.
      - eapply B1_ext; [|apply B1_zero]. intros a b. cbv beta. unfold arcs. cbn [seq vsum]. rewrite Nat.add_0_r, (Nat.mod_small x) by auto. ring.
      - assert (Ht' : ole (tot (S k)) t) by (eapply ole_trans; [apply (@total_mono (S k) (S (S k))); lia|exact Ht]).
        set (u := (x + S k) mod N). set (y := (x + S (S k)) mod N).
        assert (Hu : u < N) by (apply Nat.mod_upper_bound; lia).
        assert (Ey : y = (u + 1) mod N) by (unfold u, y; rewrite Nat.add_mod_idemp_l by lia; f_equal; lia).
        assert (T1 : edge_at time t x u) by (apply cycle_edge_at; auto; lia).
        assert (T2 : edge_at time t u y) by (rewrite Ey; apply cycle_edge_at; auto; eapply ole_trans; [apply (@total_mono 1 (S (S k))); lia|exact Ht]).
        assert (T3 : edge_at time t x y) by (apply cycle_edge_at; auto; lia).
        assert (Hxy : x <> y) by (destruct T3 as (f & E & _); apply cycle_time_inv in E; tauto).
        pose proof (path_B1 (K:=K) cycle_time_inv T1 T2 (fun _ => T3)) as HB.
        eapply B1_ext; [|exact (B1_lin (fopp f1) (IH ltac:(lia) Ht') HB)]. intros a b. cbv beta. fold u.
        unfold arcs. rewrite (seq_S (S k)), vsum_app. cbn [vsum Nat.add]. unfold path_boundary. destruct (Nat.eqb_spec x y); [congruence|].
        replace ((x + S k + 1) mod N) with y by (unfold y; f_equal; lia). fold u.
        generalize (vsum (seq 0 (S k)) (fun i => delta (((x + i) mod N =? a) && ((x + i + 1) mod N =? b))) : option K)
          (delta ((x =? a) && (u =? b)) : option K) (delta ((u =? a) && (y =? b)) : option K) (delta ((x =? a) && (y =? b)) : option K). intros. ring.
    Qed.
    Definition half : nat := (N + 1) / 2.
    Lemma half_spec : 2 * half <= N + 1 /\ N <= 2 * half /\ 0 < half /\ half < N.
    Proof.
      unfold half. pose proof (Nat.div_mod (N + 1) 2 ltac:(lia)). pose proof (Nat.mod_upper_bound (N + 1) 2 ltac:(lia)). lia.
    Qed.
    Lemma edges_sum_arcs a b : edges_sum (K:=K) (map fst edges) a b = arcs 0 N a b.
    Proof.
      unfold edges_sum, arcs, cycle_digraph. rewrite map_map, vsum_map. apply vsum_ext. intros i Hi. apply in_seq in Hi. cbn [fst snd Nat.add]. now rewrite (Nat.mod_small i) by lia.
    Qed.
    Lemma cycle_is_boundary t : ole (tot half) t -> B1 t (edges_sum (map fst edges)).
    Proof.
      intros Ht. destruct half_spec as (H1 & H2 & H3 & H4). set (h := half) in *.
      assert (T1 : edge_at time t 0 h) by (pose proof (@cycle_edge_at t 0 h ltac:(lia) H3 H4 Ht) as H; rewrite Nat.mod_small in H by lia; exact H).
      assert (Ht' : ole (tot (N - h)) t) by (eapply ole_trans; [apply (@total_mono (N - h) h); lia|exact Ht]).
      assert (E0 : (h + (N - h)) mod N = 0) by (replace (h + (N - h)) with N by lia; apply Nat.mod_same; lia).
      assert (T2 : edge_at time t h 0) by (rewrite <- E0; apply cycle_edge_at; auto; lia).
      pose proof (path_B1 (K:=K) (c:=0) cycle_time_inv T1 T2 ltac:(congruence)) as HB.
      assert (HA : B1 t (fun a b => fsub (delta ((0 =? a) && (h =? b))) (arcs 0 h a b))).
      { pose proof (@arcs_homologous t 0 ltac:(lia) (h - 1) ltac:(lia)) as H. replace (S (h - 1)) with h in H by lia. specialize (H Ht). cbn [Nat.add] in H. rewrite (Nat.mod_small h) in H by lia. exact H. }
      assert (HC : B1 t (fun a b => fsub (delta ((h =? a) && (0 =? b))) (arcs h (N - h) a b))).
      { pose proof (@arcs_homologous t h H4 (N - h - 1) ltac:(lia)) as H. replace (S (N - h - 1)) with (N - h) in H by lia. specialize (H Ht'). rewrite E0 in H. exact H. }
      eapply B1_ext; [|exact (B1_lin (fopp f1) HB (B1_lin f1 HA HC))]. intros a b. cbv beta. rewrite edges_sum_arcs.
      assert (Es : arcs 0 N a b = fadd (arcs 0 h a b) (arcs h (N - h) a b)).
      { unfold arcs. replace N with (h + (N - h)) at 1 by lia. rewrite seq_app, vsum_app. f_equal. cbn [Nat.add].
        assert (Hs : forall m (g : nat -> option K), vsum (seq h m) g = vsum (seq 0 m) (fun i => g (h + i))).
        { intros m g. rewrite <- (vsum_map (seq 0 m) (fun i => h + i)). f_equal. clear. induction m as [|m IH]; auto. rewrite !seq_S, map_app, IH. cbn [map Nat.add]. reflexivity. }
        apply Hs. }
      rewrite Es. unfold path_boundary. cbn [Nat.eqb].
      generalize (arcs 0 h a b) (arcs h (N - h) a b) (delta ((h =? a) && (match b with O => true | S _ => false end)) : option K) (delta ((match a with O => true | S _ => false end) && (h =? b)) : option K). intros. ring.
    Qed.
    Lemma cycle_not_boundary t : olt t (tot half) -> ~ B1 t (edges_sum (map fst edges)).
    Proof.
      intros Ht HB. destruct half_spec as (H1 & H2 & H3 & H4). set (h := half) in *.
      assert (Hgap : forall x y, edge_at time t x y -> x < N /\ y < N /\ x <> y /\ gap x y < h).
      { intros x y (f & E & Hf). pose proof (cycle_time_inv E) as (Hx & Hy & Hne). rewrite cycle_time in E by auto. injection E as <-. repeat split; auto.
        destruct (Nat.lt_ge_cases (gap x y) h) as [|Hge]; auto. exfalso. assert (Hlt : olt t t); [|apply olt_not_le in Hlt; apply Hlt, ole_refl].
        eapply olt_le_trans; [exact Ht|]. eapply ole_trans; [apply total_mono; exact Hge|exact Hf]. }
      pose (w := fun x y : nat => delta (y <? x) : option K).
      assert (Hz : evaluate N w (edges_sum (map fst edges)) = f0).
      { apply (@cocycle_B1 K F time N w t); auto. intros a b c Hab Hbc. apply Hgap in Hab, Hbc. destruct Hab as (Ha & Hb & Hne & G1). destruct Hbc as (_ & Hc & Hne' & G2).
        unfold w. unfold gap in G1, G2. destruct (Nat.eqb_spec a c) as [->|Hac].
        - exfalso. destruct (Nat.leb_spec b c), (Nat.leb_spec c b); lia.
        - destruct (Nat.leb_spec a b), (Nat.leb_spec b c), (Nat.ltb_spec c b), (Nat.ltb_spec c a), (Nat.ltb_spec b a); try lia; cbn [delta]; ring. }
      assert (H1' : evaluate N w (edges_sum (map fst edges)) = f1).
      { unfold evaluate. rewrite (@vsum_single K nat _ _ (N - 1)); [|apply seq_NoDup|apply in_seq; lia|].
        - rewrite (@vsum_single K nat _ _ 0); [|apply seq_NoDup|apply in_seq; lia|].
          + rewrite edges_sum_arcs. unfold arcs. rewrite (@vsum_single K nat _ _ (N - 1)); [|apply seq_NoDup|apply in_seq; lia|].
            * cbn [Nat.add]. rewrite (Nat.mod_small (N - 1)) by lia. replace (N - 1 + 1) with N by lia. rewrite Nat.mod_same by lia. rewrite !Nat.eqb_refl. unfold w. destruct (Nat.ltb_spec 0 (N - 1)); [|lia]. cbn [andb delta]. ring.
            * intros i Hi Hne. apply in_seq in Hi. cbn [Nat.add]. rewrite (Nat.mod_small i) by lia. destruct (Nat.eqb_spec i (N - 1)); [contradiction|]. reflexivity.
          + intros y Hy Hne. apply in_seq in Hy. rewrite edges_sum_arcs. unfold arcs. rewrite vsum_0; [ring|]. intros i Hi. apply in_seq in Hi. cbn [Nat.add]. rewrite (Nat.mod_small i) by lia.
            destruct (Nat.eqb_spec i (N - 1)) as [->|]; auto. replace (N - 1 + 1) with N by lia. rewrite Nat.mod_same by lia. destruct (Nat.eqb_spec 0 y); [congruence|]. reflexivity.
        - intros x Hx Hne. apply in_seq in Hx. apply vsum_0. intros y Hy. apply in_seq in Hy. unfold w. destruct (Nat.ltb_spec y x) as [Hyx|]; [|cbn [delta]; ring].
          rewrite edges_sum_arcs. unfold arcs. rewrite vsum_0; [ring|]. intros i Hi. apply in_seq in Hi. cbn [Nat.add]. rewrite (Nat.mod_small i) by lia.
          destruct (Nat.eqb_spec i x) as [->|]; auto. rewrite (Nat.mod_small (x + 1)) by lia. destruct (Nat.eqb_spec (x + 1) y); [lia|]. reflexivity. }
      rewrite Hz in H1'. symmetry in H1'. revert H1'. discriminate.
    Qed.
  End Boundaries.
End Cycle.
