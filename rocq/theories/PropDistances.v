(** Property theorem C112: grpph depends on the given edges and the shortest-path lengths only; edges no shorter than a detour count as ground edges only. *)
From Coq Require Import Permutation ZArith Reals Lia.
From Verif Require Import Base Fields FieldsFacts Spec LinAlg Columns ColumnsFacts Matrices Grpph SpecGrpph SpecPath SpecWeighted Weighted WeightedRun ShortestPaths PropWeighted PropGrpphExamples BarsUnique Relabel Float64 DoubleWalks PropDouble StdHeap Dijkstra PropDijkstra.
Set Implicit Arguments.

(** two results with the same entries in every list, up to order *)
Definition same_bars {F : Type} (r r' : list (list F) * list (list (F * F))) : Prop := Forall2 (@Permutation F) (fst r) (fst r') /\ Forall2 (@Permutation (F * F)) (snd r) (snd r').

(** ** C112: same pairs of vertices, same shortest lengths: same bars *)
Theorem C112_distances :
  forall (HI HI' : heaps) (F : ordT) (add : F -> F -> F) (z inf : F) (n : nat) (edges edges' : list (nat * nat * F)) (sp sp' : list (nat * nat * F) -> nat -> nat -> option F),
  (N.of_nat n < 65536)%N -> weighted_digraph n z edges -> weighted_digraph n z edges' -> nonneg_add add z -> no_overflow add z inf edges ->
  shortest_path_library add z n sp -> shortest_path_library add z n sp' ->
  (forall u v, In (u, v) (map fst edges) <-> In (u, v) (map fst edges')) ->
  (forall x y d, shortest add z (finite_edge_of inf edges) x y d <-> shortest add z (finite_edge_of inf edges') x y d) ->
  exists M : nat, forall fuel fuel', M < fuel -> M < fuel' ->
  exists r r', grpph_py HI fuel z inf sp n edges = Ok r /\ grpph_py HI' fuel' z inf sp' n edges' = Ok r' /\ same_bars r r'.
Proof.
  intros HI HI' F add z inf n edges edges' sp sp' Hn Hw Hw' Hadd Hov Hlib Hlib' HE Hs.
  assert (Hov' : no_overflow add z inf edges') by (intros x y d H; apply Hs in H; eauto).
  destruct (C57_weighted_digraph HI Hn Hw Hadd Hov Hlib) as (time & Hspf & M1 & H1).
  destruct (C57_weighted_digraph HI' Hn Hw' Hadd Hov' Hlib') as (time' & Hspf' & M2 & H2).
  exists (M1 + M2). intros fuel fuel' Hf Hf'. destruct (H1 fuel ltac:(lia)) as (ess0 & ess1 & prs0 & prs1 & E1 & V1 & B1). destruct (H2 fuel' ltac:(lia)) as (ess0' & ess1' & prs0' & prs1' & E2 & V2 & B2).
  exists ([ess0; ess1], [prs0; prs1]), ([ess0'; ess1'], [prs0'; prs1']). split; auto. split; auto.
  assert (Ht : forall x y, time x y = time' x y).
  { pose proof Hspf as (A1 & A2 & A3). pose proof Hspf' as (C1 & C2 & C3).
    (* a vertex joined to another by a walk is joined by a shortest one *)
    intros x y. destruct (Nat.eq_dec x y) as [->|Hne]; [now rewrite A1, C1|].
    destruct (time x y) as [d|] eqn:E.
    - apply A2, Hs in E. destruct (time' x y) as [d'|] eqn:E'; [f_equal; exact (shortest_unique E (C2 _ _ _ E'))|exfalso; exact (C3 _ _ Hne E' d (proj1 E))].
    - destruct (time' x y) as [d'|] eqn:E'; auto. apply C2, Hs in E'. exfalso. exact (A3 _ _ Hne E d' (proj1 E')). }
  assert (Hi : inverse_pair n (fun x => x) (fun x => x)) by (split; [|split]; intros; tauto).
  assert (P0 : Permutation ess0 ess0' /\ Permutation prs0 prs0').
  { apply bars_determined; [intros; apply V1, in_app_iff; auto|intros; apply V2, in_app_iff; auto|].
    intros s t Hst. apply (proj1 (B2 s t Hst _)). apply (@betti_0_relabel Z2_coeff F n (fun x => x) (fun x => x) time time' z (map fst edges) (map fst edges') Hi Ht HE). now apply B1. }
  assert (P1 : Permutation ess1 ess1' /\ Permutation prs1 prs1').
  { apply bars_determined; [intros; apply V1, in_app_iff; auto|intros; apply V2, in_app_iff; auto|].
    intros s t Hst. apply (proj2 (B2 s t Hst _)). apply (@betti_1_relabel Z2_coeff F n (fun x => x) (fun x => x) time time' z (map fst edges) (map fst edges') Hi Ht HE). now apply B1. }
  destruct P0 as [P00 P01], P1 as [P10 P11]. split; cbn [fst snd]; repeat (apply Forall2_cons; auto).
Qed.
Print Assumptions C112_distances.

(** ** Edges no shorter than a detour *)
(** each edge of [H] is at least as long as some walk along the edges of [keep] between its ends *)
Definition detours {F : ordT} (add : F -> F -> F) (z inf : F) (keep H : list (nat * nat * F)) : Prop :=
  forall u v w, In (u, v, w) H -> exists d, walk add z (finite_edge_of inf keep) u v d /\ ole d w.
(** each edge of [H] has a copy in [keep] that is no longer *)
Definition parallels {F : ordT} (keep H : list (nat * nat * F)) : Prop := forall u v w, In (u, v, w) H -> exists w', In (u, v, w') keep /\ ole w' w.

Section Detours.
  Context {F : ordT} (add : F -> F -> F) (z inf : F) (keep H : list (nat * nat * F)).
  Hypothesis Hmono : forall a b w, ole a b -> ole (add a w) (add b w).
  Notation W es := (walk add z (finite_edge_of inf es)).
  Lemma more_walks x y d : W keep x y d -> W (keep ++ H) x y d.
  Proof. induction 1 as [|u y d w Hv IH [Ha Hl]]; [constructor|]. econstructor; [exact IH|]. split; auto. apply in_app_iff; auto. Qed.
  (** if every walk has a counterpart in [keep] that is no longer, the shortest lengths are the same *)
  Lemma shortest_keep : (forall x y d, W (keep ++ H) x y d -> exists d', W keep x y d' /\ ole d' d) ->
    forall x y d, shortest add z (finite_edge_of inf (keep ++ H)) x y d <-> shortest add z (finite_edge_of inf keep) x y d.
  Proof.
    intros Hc x y d. split; intros [H1 H2].
    - destruct (Hc _ _ _ H1) as (d' & H3 & H4). assert (d = d') by (apply ole_antisym; auto; apply H2, more_walks, H3). subst d'. split; auto. intros e He. apply H2, more_walks, He.
    - split; [now apply more_walks|]. intros e He. destruct (Hc _ _ _ He) as (e' & H3 & H4). eapply ole_trans; [apply H2; exact H3|exact H4].
  Qed.
  Lemma parallel_walks (Hadd : forall a b c, ole b c -> ole (add a b) (add a c)) : parallels keep H -> forall x y d, W (keep ++ H) x y d -> exists d', W keep x y d' /\ ole d' d.
  Proof.
    intros Hp x y d. induction 1 as [|u y d w Hv IH [Ha Hl]]; [exists z; split; [constructor|apply ole_refl]|]. destruct IH as (d' & Hd' & Hle). apply in_app_iff in Ha. destruct Ha as [Ha|Ha].
    - exists (add d' w). split; [econstructor; [exact Hd'|split; auto]|now apply Hmono].
    - destruct (Hp _ _ _ Ha) as (w' & Ha' & Hw'). exists (add d' w'). split; [econstructor; [exact Hd'|split; auto; eapply ole_lt_trans; eauto]|]. eapply ole_trans; [apply Hmono, Hle|apply Hadd, Hw'].
  Qed.
  Section Assoc.
    Hypothesis Hassoc : forall a b c, add a (add b c) = add (add a b) c.
    Hypothesis Hzr : forall a, add a z = a.
    Lemma walk_app x u y d d' : W keep x u d -> W keep u y d' -> W keep x y (add d d').
    Proof. intros H1. induction 1 as [|v y d' w Hv IH Ha]; [now rewrite Hzr|]. rewrite Hassoc. econstructor; eauto. Qed.
    Lemma detour_walks (Hadd : forall a b c, ole b c -> ole (add a b) (add a c)) : detours add z inf keep H -> forall x y d, W (keep ++ H) x y d -> exists d', W keep x y d' /\ ole d' d.
    Proof.
      intros Hp x y d. induction 1 as [|u y d w Hv IH [Ha Hl]]; [exists z; split; [constructor|apply ole_refl]|]. destruct IH as (d' & Hd' & Hle). apply in_app_iff in Ha. destruct Ha as [Ha|Ha].
      - exists (add d' w). split; [econstructor; [exact Hd'|split; auto]|now apply Hmono].
      - destruct (Hp _ _ _ Ha) as (e & He & Hew). exists (add d' e). split; [now apply walk_app with u|]. eapply ole_trans; [apply Hmono, Hle|apply Hadd, Hew].
    Qed.
  End Assoc.
End Detours.

(** In exact arithmetic an edge that is no shorter than a detour can be given any other such weight, infinity included: only its presence matters. *)
Theorem C112_detours :
  forall (HI HI' : heaps) (F : ordT) (add : F -> F -> F) (z inf : F) (n : nat) (keep H H' : list (nat * nat * F)) (sp sp' : list (nat * nat * F) -> nat -> nat -> option F),
  (forall a b, add a b = add b a) -> (forall a b c, add a (add b c) = add (add a b) c) -> (forall a b w, ole a b -> ole (add a w) (add b w)) ->
  (N.of_nat n < 65536)%N -> weighted_digraph n z (keep ++ H) -> weighted_digraph n z (keep ++ H') -> nonneg_add add z -> no_overflow add z inf keep ->
  shortest_path_library add z n sp -> shortest_path_library add z n sp' ->
  detours add z inf keep H -> detours add z inf keep H' -> (forall u v, In (u, v) (map fst H) <-> In (u, v) (map fst H')) ->
  exists M : nat, forall fuel fuel', M < fuel -> M < fuel' ->
  exists r r', grpph_py HI fuel z inf sp n (keep ++ H) = Ok r /\ grpph_py HI' fuel' z inf sp' n (keep ++ H') = Ok r' /\ same_bars r r'.
Proof.
  intros HI HI' F add z inf n keep H H' sp sp' Hc Ha Hm Hn Hw Hw' Hadd Hov Hlib Hlib' HD HD' HE.
  assert (Hzr : forall a, add a z = a) by (intros a; rewrite Hc; apply Hadd). assert (Hm2 : forall a b c, ole b c -> ole (add a b) (add a c)) by (intros a b c Hle; rewrite (Hc a b), (Hc a c); now apply Hm).
  pose proof (@shortest_keep F add z inf keep H (detour_walks Hm Ha Hzr Hm2 HD)) as S1. pose proof (@shortest_keep F add z inf keep H' (detour_walks Hm Ha Hzr Hm2 HD')) as S2.
  apply (@C112_distances HI HI' F add z inf n (keep ++ H) (keep ++ H') sp sp'); auto.
  - intros x y d Hd. apply S1 in Hd. eauto.
  - intros u v. rewrite !map_app, !in_app_iff, HE. reflexivity.
  - intros x y d. now rewrite S1, S2.
Qed.
Print Assumptions C112_detours.

(** Of parallel edges only the lightest matters, in any monotone addition, that of doubles included. *)
Theorem C112_parallel :
  forall (HI HI' : heaps) (F : ordT) (add : F -> F -> F) (z inf : F) (n : nat) (keep H : list (nat * nat * F)) (sp sp' : list (nat * nat * F) -> nat -> nat -> option F),
  (forall a b c d, ole a b -> ole c d -> ole (add a c) (add b d)) ->
  (N.of_nat n < 65536)%N -> weighted_digraph n z (keep ++ H) -> nonneg_add add z -> no_overflow add z inf keep ->
  shortest_path_library add z n sp -> shortest_path_library add z n sp' -> parallels keep H ->
  exists M : nat, forall fuel fuel', M < fuel -> M < fuel' ->
  exists r r', grpph_py HI fuel z inf sp n (keep ++ H) = Ok r /\ grpph_py HI' fuel' z inf sp' n keep = Ok r' /\ same_bars r r'.
Proof.
  intros HI HI' F add z inf n keep H sp sp' Hm Hn Hw Hadd Hov Hlib Hlib' HP.
  pose proof (@shortest_keep F add z inf keep H (@parallel_walks F add z inf keep H (fun a b w Hle => Hm a b w w Hle (ole_refl w)) (fun a b c Hle => Hm a a b c (ole_refl a) Hle) HP)) as S1.
  apply (@C112_distances HI HI' F add z inf n (keep ++ H) keep sp sp'); auto.
  - intros u v w Hin. apply (Hw u v w), in_app_iff. auto.
  - intros x y d Hd. apply S1 in Hd. eauto.
  - intros u v. rewrite map_app, in_app_iff. split; auto. intros [Hin|Hin]; auto. apply in_map_iff in Hin. destruct Hin as ([[a b] w] & [= -> ->] & Hin). destruct (HP _ _ _ Hin) as (w' & Hin' & _).
    apply in_map_iff. exists (u, v, w'). auto.
Qed.
Print Assumptions C112_parallel.
(** the same on doubles, with Dijkstra *)
Corollary C112_parallel_doubles :
  forall (HI HI' : heaps) (n : nat) (keep H : list (nat * nat * notnan_ord)) adj,
  (N.of_nat n < 65536)%N -> double_weights n (keep ++ H) -> (forall edges, adjacency edges (adj edges)) -> parallels keep H ->
  let sp := dijkstra_sp (F:=notnan_ord) add64 zero64 [] scored_push scored_pop adj in
  exists M : nat, forall fuel fuel', M < fuel -> M < fuel' ->
  exists r r', grpph_py (F:=notnan_ord) HI fuel zero64 inf64 sp n (keep ++ H) = Ok r /\ grpph_py (F:=notnan_ord) HI' fuel' zero64 inf64 sp n keep = Ok r' /\ same_bars r r'.
Proof.
  intros HI HI' n keep H adj Hn Hd Hadj HP sp.
  assert (Hlib : shortest_path_library (F:=notnan_ord) add64 zero64 n sp) by exact (proj1 (@C97_dijkstra notnan_ord _ add64 zero64 _ _ _ adj add64_nonneg add64_monotone (C97_std_queue notnan_ord) Hadj) n).
  assert (Hw : weighted_digraph (F:=notnan_ord) n zero64 (keep ++ H)) by (intros u v w Hin; destruct (Hd _ _ _ Hin) as (H1 & H2 & H3 & _); split; auto; split; auto; apply ole_val; now rewrite val_zero).
  apply (@C112_parallel HI HI' notnan_ord add64 zero64 inf64 n keep H sp sp); auto using add64_nonneg.
  - intros a b c d H1 H2. apply ole_val in H1, H2. apply ole_val. now apply add64_mono.
  - apply (@no_overflow64 n keep); auto; intros u v w Hin.
    + apply Hw, in_app_iff. auto.
    + assert (Hin' : In (u, v, w) (keep ++ H)) by (apply in_app_iff; auto). apply (Hd _ _ _ Hin').
Qed.
Print Assumptions C112_parallel_doubles.

(** A triangle with a long chord: the chord 0 -> 2 of weight 9 or infinity, 0 -> 1 -> 2 having length 3; and a heavier copy of 0 -> 1. *)
Example C112_ex :
  let keep := [(0, 1, 1); (1, 2, 2); (2, 3, 1)] : list (nat * nat * nat_ord) in
  let H := [(0, 2, 9)] : list (nat * nat * nat_ord) in let H' := [(0, 2, 1000)] : list (nat * nat * nat_ord) in
  let run es := grpph_py (F:=nat_ord) list_heaps 40 0 1000 (fun e => bellman (F:=nat_ord) Nat.add 0 e 4) 4 es in
  weighted_digraph (F:=nat_ord) 4 0 (keep ++ H) /\ detours (F:=nat_ord) Nat.add 0 1000 keep H /\ detours (F:=nat_ord) Nat.add 0 1000 keep H' /\ parallels keep ([(0, 1, 4)] : list (nat * nat * nat_ord)) /\
  run (keep ++ H) = Ok ([[0]; []], [[]; [(0, 3)]]) /\ run (keep ++ H') = Ok ([[0]; []], [[]; [(0, 3)]]) /\ run keep = Ok ([[0]; []], [[]; []]) /\ run (keep ++ [(0, 1, 4)]) = run keep.
Proof.
  cbv zeta. assert (Hk : walk (F:=nat_ord) Nat.add 0 (finite_edge_of (F:=nat_ord) 1000 [(0, 1, 1); (1, 2, 2); (2, 3, 1)]) 0 2 3).
  { apply (@walk_snoc nat_ord Nat.add 0 _ 0 1 2 1 2); [apply (@walk_snoc nat_ord Nat.add 0 _ 0 0 1 0 1); [constructor|]|]; (split; [simpl; auto|reflexivity]). }
  split; [intros u v w Hin; simpl in Hin; repeat (destruct Hin as [[= <- <- <-]|Hin]; [repeat split; auto; try lia; apply ole_nat; lia|]); destruct Hin|].
  split; [intros u v w [[= <- <- <-]|[]]; exists 3; split; [exact Hk|apply ole_nat; lia]|]. split; [intros u v w [[= <- <- <-]|[]]; exists 3; split; [exact Hk|apply ole_nat; lia]|].
  split; [intros u v w [[= <- <- <-]|[]]; exists 1; split; [simpl; auto|apply ole_nat; lia]|]. repeat split; vm_compute; reflexivity.
Qed.
