(** Property theorems C97 and C98: petgraph's Dijkstra meets the contract used by grpph. *)
From Coq Require Import Permutation ZArith Reals Lia Arith.
From Verif Require Import Base Fields Columns Spec SpecWeighted SpecGrpph Grpph Dijkstra ShortestPaths SpecBottleneck Examples PropStability Float64 DoubleWalks PropDouble StdHeap.
Set Implicit Arguments.

(** Dijkstra as the shortest-path routine of grpph (phlite_grpph/src/lib.rs 37-46: one call per source, then a look-up per target). *)
Definition dijkstra_sp {F : ordT} {Q : Type} (add : F -> F -> F) (z : F) (qnew : Q) push pop (adj : list (nat * nat * F) -> nat -> list (nat * F)) (edges : list (nat * nat * F)) (x y : nat) : option F :=
  match dijkstra add z qnew push pop (adj edges) (S (S (length edges))) x with Ok dist => dist y | _ => None end.

(** ** C97: on non-negative weights Dijkstra returns, for every source, the lengths of shortest walks *)
Theorem C97_dijkstra :
  forall (F : ordT) (Q : Type) (add : F -> F -> F) (z : F) (qnew : Q) push pop (adj : list (nat * nat * F) -> nat -> list (nat * F)),
  nonneg_add add z -> (forall a b w, ole a b -> ole (add a w) (add b w)) -> min_queue qnew push pop -> (forall edges, adjacency edges (adj edges)) ->
  (forall n, shortest_path_library add z n (dijkstra_sp add z qnew push pop adj)) /\
  (forall n edges x fuel, weighted_digraph n z edges -> S (length edges) < fuel ->
     exists dist, dijkstra add z qnew push pop (adj edges) fuel x = Ok dist /\
       forall y, (forall d, dist y = Some d <-> shortest add z (edge_of edges) x y d) /\ (dist y = None <-> forall d, ~ walk add z (edge_of edges) x y d)).
Proof.
  intros F Q add z qnew push pop adj Hadd Hmono [holds Hpop] Hadj. split.
  - intros n edges Hw x y _ _. destruct (dijkstra_correct Hadd Hmono x Hpop (Hadj edges) Hw (fuel:=S (S (length edges)))) as (dist & E & H); [lia|].
    unfold dijkstra_sp. rewrite E. exact (H y).
  - intros n edges x fuel Hw Hf. destruct (dijkstra_correct Hadd Hmono x Hpop (Hadj edges) Hw (fuel:=fuel)) as (dist & E & H); [lia|].
    exists dist. split; auto. intros y. destruct (H y) as [H1 H2]. split.
    + intros d. split; auto. intros [Hk Hmin]. destruct (dist y) as [d'|] eqn:Ed; [|destruct (H2 eq_refl _ Hk)].
      destruct (H1 d' eq_refl) as [Hk' Hmin']. f_equal. apply ole_antisym; auto.
    + split; auto. intros Hn. destruct (dist y) as [d'|] eqn:Ed; auto. destruct (H1 d' eq_refl) as [Hk' _]. destruct (Hn _ Hk').
Qed.
Print Assumptions C97_dijkstra.

(** ** C98: whatever the weights, Dijkstra ends, finds exactly the vertices reachable from the source, and returns lengths of walks to them *)
Section Any.
  Context {F : ordT} {Q : Type} (add : F -> F -> F) (z : F).
  Variables (qnew : Q) (push : F * nat -> Q -> Q) (pop : Q -> option ((F * nat) * Q)) (holds : Q -> list (F * nat) -> Prop).
  Variables (adj : nat -> list (nat * F)) (edges : list (nat * nat * F)) (x : nat).
  Hypothesis Hpop : queue_holds qnew push pop holds.
  Hypothesis Hadj : adjacency edges adj.
  Notation wk := (walk add z (edge_of edges) x).
  (** a weaker invariant that compares no lengths; the vertices in [ex] need not be queued *)
  Record fair (ex : nat -> Prop) (s : @dstate F Q) (l : list (F * nat)) : Prop := Fair {
    f_holds : holds (queue s) l;
    f_walk : forall v d, scores s v = Some d -> wk v d;
    f_start : scores s x <> None;
    f_queue : forall d v, In (d, v) l -> wk v d /\ scores s v <> None;
    f_queued : forall v d, scores s v = Some d -> ex v \/ In v (visited s) \/ exists d', In (d', v) l;
    f_visited : forall v, In v (visited s) -> scores s v <> None }.
  Definition settled (s : @dstate F Q) (u : nat) : Prop := forall y w, In (u, y, w) edges -> scores s y <> None.

  Lemma relax_fair ex node ns s l e : wk node ns -> In (node, fst e, snd e) edges -> fair ex s l -> exists l',
    fair ex (relax add push ns s e) l' /\ visited (relax add push ns s e) = visited s /\ length l' <= S (length l) /\
    (forall v, scores s v <> None -> scores (relax add push ns s e) v <> None) /\ scores (relax add push ns s e) (fst e) <> None.
  Proof.
    intros Hk He Hs. destruct e as [y w]. cbn [fst snd] in *. assert (Hwalk : wk y (add ns w)) by (econstructor; eauto). unfold relax. cbn [fst snd].
    assert (Hset : let s' := DState (set_score (scores s) y (add ns w)) (visited s) (push (add ns w, y) (queue s)) in exists l',
      fair ex s' l' /\ visited s' = visited s /\ length l' <= S (length l) /\ (forall v, scores s v <> None -> scores s' v <> None) /\ scores s' y <> None).
    { cbv zeta. cbn [scores visited length]. unfold set_score. exists ((add ns w, y) :: l). destruct Hs as [F0 F1 F2 F3 F4 F5].
      assert (Hup : forall v, scores s v <> None -> (if v =? y then Some (add ns w) else scores s v) <> None) by (intros v Hv; destruct (v =? y); [discriminate|auto]).
      split; [constructor; cbn [scores visited queue]|].
      - now apply Hpop.
      - intros v d. destruct (Nat.eqb_spec v y) as [->|]; [intros [= <-]; auto|apply F1].
      - auto.
      - intros d v [[= <- <-]|Hin]; [split; [auto|rewrite Nat.eqb_refl; discriminate]|]. destruct (F3 d v Hin). auto.
      - intros v d. destruct (Nat.eqb_spec v y) as [->|]; [intros _; right; right; exists (add ns w); now left|]. intros Hd. destruct (F4 v d Hd) as [|[|(d' & Hd')]]; [now left|right; now left|right; right; exists d'; now right].
      - auto.
      - split; auto. split; [cbn [length]; lia|]. split; [auto|]. rewrite Nat.eqb_refl. discriminate. }
    assert (Hskip : scores s y <> None -> exists l', fair ex s l' /\ visited s = visited s /\ length l' <= S (length l) /\ (forall v, scores s v <> None -> scores s v <> None) /\ scores s y <> None)
      by (intros Hn; exists l; split; [exact Hs|]; repeat split; auto).
    assert (Hsy : (exists old, scores s y = Some old) \/ scores s y = None) by (destruct (scores s y); eauto).
    destruct (is_visited s y) eqn:Ev.
    - unfold is_visited in Ev. destruct (in_dec Nat.eq_dec y (visited s)) as [Hi|]; [|discriminate]. apply Hskip, (f_visited Hs), Hi.
    - destruct Hsy as [[old Es]|Es]; rewrite Es; [|exact Hset]. destruct (oltb (add ns w) old); [exact Hset|]. apply Hskip. congruence.
  Qed.
  Lemma relax_all_fair ex node ns es : wk node ns -> (forall y w, In (y, w) es -> In (node, y, w) edges) -> forall s l, fair ex s l -> exists l',
    let s' := fold_left (relax add push ns) es s in
    fair ex s' l' /\ visited s' = visited s /\ length l' <= length es + length l /\ (forall v, scores s v <> None -> scores s' v <> None) /\
    (forall y w, In (y, w) es -> scores s' y <> None).
  Proof.
    intros Hk. induction es as [|e es IH]; intros Hl s l Hs; cbn [fold_left].
    - exists l. cbv zeta. repeat (split; auto).
    - destruct (@relax_fair ex node ns s l e Hk) as (l1 & A1 & A2 & A3 & A4 & A5); [apply Hl; left; now destruct e|exact Hs|].
      destruct (IH (fun y w H => Hl y w (or_intror H)) _ l1 A1) as (l2 & B1 & B2 & B3 & B4 & B5).
      exists l2. cbv zeta in *. split; auto. split; [congruence|]. split; [cbn [length]; lia|]. split; [auto|].
      intros y w [->|Hin]; [|eauto]. apply B4. exact A5.
  Qed.
  Lemma loop_fair : forall fuel s l, fair (fun _ => False) s l -> (forall v, In v (visited s) -> settled s v) -> length l + left_edges edges (visited s) < fuel ->
    exists s', dijkstra_loop add push pop adj fuel s = Ok s' /\ fair (fun _ => False) s' [] /\ (forall u, In u (visited s') -> settled s' u).
  Proof.
    induction fuel as [|fuel IH]; intros s l Hs Hv Hf; [lia|]. cbn [dijkstra_loop]. pose proof (proj2 (proj2 Hpop) (queue s) l (f_holds Hs)) as Hp. destruct (pop (queue s)) as [[[ns node] q]|]; [|subst l; exists s; auto].
    destruct Hp as [(l0 & HP & Hq) _]. pose proof (Permutation_length HP) as Hlen. cbn [length] in Hlen.
    assert (Hin : In (ns, node) l) by (apply (Permutation_in _ (Permutation_sym HP)); now left).
    assert (Hsub : forall e, In e l0 -> In e l) by (intros e He; apply (Permutation_in _ (Permutation_sym HP)); now right).
    set (s0 := DState (scores s) (visited s) q).
    assert (Hs0 : fair (eq node) s0 l0).
    { destruct Hs as [F0 F1 F2 F3 F4 F5]. constructor; cbn [scores visited queue s0]; auto. intros v d Hd. destruct (F4 v d Hd) as [[]|[|(d' & Hd')]]; [right; now left|].
      apply (Permutation_in _ HP) in Hd'. destruct Hd' as [[= <- <-]|]; [now left|right; right; eauto]. }
    destruct (is_visited s0 node) eqn:Ev; unfold is_visited in Ev; cbn [visited s0] in Ev; destruct (in_dec Nat.eq_dec node (visited s)) as [Hi|Hi]; try discriminate.
    - apply IH with (l := l0); [| |cbn [visited s0]; lia].
      + destruct Hs0 as [F0 F1 F2 F3 F4 F5]. constructor; auto. intros v d Hd. destruct (F4 v d Hd) as [<-|[|]]; auto.
      + exact Hv.
    - destruct (@relax_all_fair (eq node) node ns (adj node) (proj1 (f_queue Hs _ _ Hin))) with (s := s0) (l := l0) as (l1 & C1 & C2 & C3 & C4 & C5); [intros y w; apply (adj_edge Hadj)|exact Hs0|].
      cbv zeta in *. set (s1 := fold_left (relax add push ns) (adj node) s0) in *. apply IH with (l := l1).
      + destruct C1 as [F0 F1 F2 F3 F4 F5]. constructor; cbn [scores visited queue mark]; auto.
        * intros v d Hd. right. destruct (F4 v d Hd) as [<-|[|]]; [left; now left|left; now right|now right].
        * intros v [<-|Hv']; auto. apply C4, (f_queue Hs _ _ Hin).
      + cbn [mark visited]. intros v [<-|Hi']; [intros y w Ha; apply (C5 y w), (adj_edge Hadj), Ha|].
        rewrite C2 in Hi'. intros y w Ha. apply C4, (Hv v Hi' y w Ha).
      + cbn [mark visited]. rewrite C2. cbn [visited s0] in *. pose proof (left_cons Hadj _ _ Hi). lia.
  Qed.
  Lemma any_weights fuel : S (length edges) < fuel ->
    exists dist, dijkstra add z qnew push pop adj fuel x = Ok dist /\ forall y, (forall d, dist y = Some d -> wk y d) /\ (dist y = None -> forall d, ~ wk y d).
  Proof.
    intros Hf. destruct (@loop_fair fuel (dijkstra_start z qnew push x) [(z, x)]) as (s & Es & Hs & Hset).
    - constructor; cbn [dijkstra_start scores queue visited]; unfold set_score.
      + apply Hpop, Hpop.
      + intros v d. destruct (Nat.eqb_spec v x) as [->|]; [|discriminate]. intros [= <-]. constructor.
      + rewrite Nat.eqb_refl. discriminate.
      + intros d v [[= <- <-]|[]]. rewrite Nat.eqb_refl. split; [constructor|discriminate].
      + intros v d. destruct (Nat.eqb_spec v x) as [->|]; [|discriminate]. intros _. right. right. exists z. now left.
      + intros v [].
    - intros v [].
    - cbn [dijkstra_start visited length]. assert (left_edges edges [] <= length edges); [|lia]. unfold left_edges. apply filter_shorter.
    - exists (scores s). unfold dijkstra. rewrite Es. cbn [bind]. split; auto. intros y. split; [apply (f_walk Hs)|].
      assert (Hall : forall v d, wk v d -> scores s v <> None).
      { intros v d Hk. induction Hk as [|u v d w Hk IH Ha]; [apply (f_start Hs)|]. destruct (scores s u) as [e|] eqn:Eu; [|congruence].
        destruct (f_queued Hs _ Eu) as [[]|[Hu|(d' & [])]]. exact (Hset u Hu v w Ha). }
      intros Hn d Hk. exact (Hall _ _ Hk Hn).
  Qed.
End Any.

Theorem C98_any_weights :
  forall (F : ordT) (Q : Type) (add : F -> F -> F) (z : F) (qnew : Q) push pop (edges : list (nat * nat * F)) (adj : nat -> list (nat * F)) (x fuel : nat),
  min_queue qnew push pop -> adjacency edges adj -> S (length edges) < fuel ->
  exists dist, dijkstra add z qnew push pop adj fuel x = Ok dist /\
    forall y, (forall d, dist y = Some d -> walk add z (edge_of edges) x y d) /\ (dist y = None <-> forall d, ~ walk add z (edge_of edges) x y d).
Proof.
  intros F Q add z qnew push pop edges adj x fuel [holds Hpop] Hadj Hf. destruct (any_weights add z x Hpop Hadj Hf) as (dist & E & H); auto.
  exists dist. split; auto. intros y. destruct (H y) as [H1 H2]. split; auto. split; auto. intros Hn. destruct (dist y) as [d|] eqn:Ed; auto. destruct (Hn d). auto.
Qed.
Print Assumptions C98_any_weights.

(** ** The queue of petgraph: std's [BinaryHeap] (StdHeap.v) of [MinScored] entries, which are ordered by decreasing score (petgraph src/scored.rs) *)
Definition min_scored {F : ordT} (a b : F * nat) : comparison := cmp (fst b) (fst a).
Definition scored_push {F : ordT} : F * nat -> list (F * nat) -> list (F * nat) := ah_push (@min_scored F).
Definition scored_pop {F : ordT} : list (F * nat) -> option ((F * nat) * list (F * nat)) := ah_pop (@min_scored F).
Theorem C97_std_queue : forall F : ordT, min_queue (F:=F) [] scored_push scored_pop.
Proof.
  intros F. assert (Hopp : forall a b : F * nat, min_scored b a = CompOpp (min_scored a b)) by (intros [a u] [b v]; apply cmp_opp).
  assert (Htr : forall a b c : F * nat, min_scored a b <> Gt -> min_scored b c <> Gt -> min_scored a c <> Gt) by (intros [a u] [b v] [c w] H1 H2; exact (ole_trans H2 H1)).
  exists (fun q l => heap (@min_scored F) q /\ Permutation l q). split; [split; [intros d i Hi; cbn in Hi; lia|constructor]|]. split.
  - intros q l e [Hh Hl]. destruct (@push_ok _ _ Hopp Htr e q Hh) as [P1 P2]. split; auto. unfold scored_push. rewrite P2. now constructor.
  - intros q l [Hh Hl]. unfold scored_pop. destruct (ah_pop (@min_scored F) q) as [[e q']|] eqn:E.
    + destruct (@pop_ok _ _ Hopp Htr _ _ _ Hh E) as (P1 & P2 & _ & P3). split; [exists q'; split; auto; now rewrite Hl|]. intros e' He'. apply (P3 e'). now rewrite <- Hl.
    + apply pop_none in E. subst q. now apply Permutation_sym, Permutation_nil in Hl.
Qed.
Print Assumptions C97_std_queue.

(** ** C99: grpph on doubles, with Dijkstra on std's heap as its shortest-path routine *)
Theorem C99_grpph_dijkstra :
  forall (HI : heaps) (n : nat) (edges : list (nat * nat * notnan_ord)) adj,
  (N.of_nat n < 65536)%N -> double_weights n edges -> (forall edges, adjacency edges (adj edges)) ->
  exists b0 b1 exact, exact_diagram n edges b0 b1 exact /\
  exists N : nat, forall fuel, N < fuel -> exists prs,
    grpph_py (F:=notnan_ord) HI fuel zero64 inf64 (dijkstra_sp (F:=notnan_ord) add64 zero64 [] scored_push scored_pop adj) n edges
      = Ok ([repeat (zero64 : notnan_ord) b0; repeat (zero64 : notnan_ord) b1], [[]; prs]) /\
    matching (same_bar ((1 + Raux.bpow Zaux.radix2 (-53)) ^ (n - 2))%R) (fun _ => False) (fun _ => False) prs exact.
Proof.
  intros HI n edges adj Hn Hdw Hadj. apply C93_double_grpph; auto.
  exact (proj1 (@C97_dijkstra notnan_ord _ add64 zero64 _ _ _ adj add64_nonneg add64_monotone (C97_std_queue notnan_ord) Hadj) n).
Qed.
Print Assumptions C99_grpph_dijkstra.

(** ** Adjacency lists exist *)
Section Instances.
  Context {F : ordT}.
  Definition out_edges (edges : list (nat * nat * F)) (u : nat) : list (nat * F) := map (fun e => (snd (fst e), snd e)) (filter (fun e => fst (fst e) =? u) edges).
  Lemma out_edges_adjacency edges : adjacency edges (out_edges edges).
  Proof. intros u. reflexivity. Qed.
End Instances.

(** A digraph in which the first score of vertex 3 is improved twice and vertex 4 cannot be reached. *)
Example C97_ex :
  let edges := [(0, 3, 10); (0, 1, 1); (1, 3, 7); (1, 2, 2); (2, 3, 1); (4, 0, 1); (3, 3, 0)] : list (nat * nat * nat_ord) in
  nonneg_add (F:=nat_ord) plus 0 /\ (forall a b w : nat_ord, ole a b -> ole (T:=nat_ord) (a + w) (b + w)) /\ weighted_digraph (F:=nat_ord) 5 0 edges /\
  match dijkstra (F:=nat_ord) plus 0 [] scored_push scored_pop (out_edges edges) 9 0 with Ok dist => Ok (map dist (seq 0 5)) | _ => NoFuel end = Ok [Some 0; Some 1; Some 3; Some 4; None].
Proof.
  cbv zeta. assert (Hle : forall a b : nat_ord, @ole nat_ord a b <-> (a : nat) <= b).
  { intros a b. unfold ole. cbn [cmp nat_ord]. split; [apply Nat.compare_le_iff|apply Nat.compare_le_iff]. }
  split; [split; [reflexivity|intros d w _ _; split; apply Hle; lia]|]. split; [intros a b w H; apply Hle; apply Hle in H; lia|]. split; [|reflexivity].
  intros u v w Hin. simpl in Hin. repeat (destruct Hin as [[= <- <- <-]|Hin]; [split; [lia|split; [lia|apply Hle; lia]]|]). destruct Hin.
Qed.
(** With a negative weight (C98) the value need not be the least one: vertex 1 is reached by a walk of length 0, Dijkstra returns 1. *)
Example C98_ex :
  let edges := [(0, 1, 1%Z); (0, 2, 2%Z); (2, 1, (-2)%Z)] : list (nat * nat * Z_ord) in
  match dijkstra (F:=Z_ord) Z.add 0%Z [] scored_push scored_pop (out_edges edges) 5 0 with Ok dist => Ok (map dist (seq 0 4)) | _ => NoFuel end = Ok [Some 0%Z; Some 1%Z; Some 2%Z; None] /\
  walk (F:=Z_ord) Z.add 0%Z (edge_of edges) 0 1 0%Z.
Proof.
  cbv zeta. split; [reflexivity|]. apply (@walk_snoc Z_ord Z.add 0%Z _ 0 2 1 2%Z (-2)%Z); [apply (@walk_snoc Z_ord Z.add 0%Z _ 0 0 2 0%Z 2%Z); [constructor|]|]; unfold edge_of; simpl; auto.
Qed.
(** The triangle of C93 again, computed with Dijkstra. *)
Example C99_ex :
  let edges := [(0, 1, d01); (1, 2, d02); (0, 2, d1); (2, 0, inf64)] : list (nat * nat * notnan_ord) in
  match grpph_py (F:=notnan_ord) list_heaps 40 zero64 inf64 (dijkstra_sp (F:=notnan_ord) add64 zero64 [] scored_push scored_pop out_edges) 3 edges with
  | Ok (e, p) => Ok (map (map sf) e, map (map (fun q => (sf (fst q), sf (snd q)))) p) = Ok ([[sf zero64]; [sf zero64]], [[]; [(sf zero64, sf d03)]])
  | _ => False
  end.
Proof. vm_compute. reflexivity. Qed.
(** Negative weights are accepted without complaint: a digraph with one edge of weight -3 gets a bar of dimension 0 that ends before it begins, although its four vertices are
    joined by grounded edges. *)
Example C99_negative_ex :
  let edges := [(0, 1, 1%Z); (1, 2, 1%Z); (0, 3, 1%Z); (3, 2, (-3)%Z)] : list (nat * nat * Z_ord) in
  grpph_py (F:=Z_ord) list_heaps 60 0%Z 1000%Z (dijkstra_sp (F:=Z_ord) Z.add 0%Z [] scored_push scored_pop out_edges) 4 edges = Ok ([[0%Z]; []], [[(0%Z, (-2)%Z)]; [(0%Z, 1%Z); (0%Z, 1%Z)]]).
Proof. vm_compute. reflexivity. Qed.
