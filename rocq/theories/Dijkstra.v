(** petgraph 0.6.5's [dijkstra] (called at phlite_grpph/src/lib.rs 40 with [goal = None]), and a proof that it meets the contract [shortest_path_library].
    petgraph is not part of the repository; the model follows its published source (src/algo/dijkstra.rs, src/scored.rs). Node indices are numbers, the score map is a function. *)
From Verif Require Import Base SpecWeighted.
From Coq Require Import Permutation Lia Arith.
Set Implicit Arguments.

Section Dijkstra.
  Context {F : ordT} (add : F -> F -> F) (z : F).
  (** the queue [visit_next : BinaryHeap<MinScored<K, NodeId>>]: its type, the empty queue, [push] and [pop] *)
  Context {Q : Type} (qnew : Q) (push : F * nat -> Q -> Q) (pop : Q -> option ((F * nat) * Q)).
  (** [graph.edges(node)]: targets and weights of the edges leaving a node, in some order *)
  Variable adj : nat -> list (nat * F).

  (** the state: [scores : HashMap<NodeId, K>], [visited], [visit_next] *)
  Record dstate := DState { scores : nat -> option F; visited : list nat; queue : Q }.
  Definition set_score (s : nat -> option F) (v : nat) (d : F) : nat -> option F := fun u => if u =? v then Some d else s u.
  Definition is_visited (s : dstate) (v : nat) : bool := if in_dec Nat.eq_dec v (visited s) then true else false.

  (** the body of the loop over the edges of the popped node *)
  Definition relax (node_score : F) (s : dstate) (e : nat * F) : dstate :=
    let next := fst e in
    if is_visited s next then s
    else
      let next_score := add node_score (snd e) in
      match scores s next with
      | Some old => if oltb next_score old then DState (set_score (scores s) next next_score) (visited s) (push (next_score, next) (queue s)) else s
      | None => DState (set_score (scores s) next next_score) (visited s) (push (next_score, next) (queue s))
      end.
  Definition mark (s : dstate) (v : nat) : dstate := DState (scores s) (v :: visited s) (queue s).
  (** the [while let Some(..) = visit_next.pop()] loop *)
  Fixpoint dijkstra_loop (fuel : nat) (s : dstate) : res dstate :=
    match fuel with
    | O => NoFuel
    | S fuel =>
      match pop (queue s) with
      | None => Ok s
      | Some ((node_score, node), q) =>
        let s := DState (scores s) (visited s) q in
        if is_visited s node then dijkstra_loop fuel s
        else dijkstra_loop fuel (mark (fold_left (relax node_score) (adj node) s) node)
      end
    end.
  Definition dijkstra_start (x : nat) : dstate := DState (set_score (fun _ => None) x z) [] (push (z, x) qnew).
  Definition dijkstra (fuel x : nat) : res (nat -> option F) := do s <- dijkstra_loop fuel (dijkstra_start x); Ok (scores s).
End Dijkstra.

(** what is assumed of the queue: it holds what has been pushed and not popped yet ([l], in any order), and a pop fails exactly on the empty queue and otherwise
    removes some entry of least score *)
Definition queue_holds {F : ordT} {Q : Type} (qnew : Q) (push : F * nat -> Q -> Q) (pop : Q -> option ((F * nat) * Q)) (holds : Q -> list (F * nat) -> Prop) : Prop :=
  holds qnew [] /\
  (forall q l e, holds q l -> holds (push e q) (e :: l)) /\
  (forall q l, holds q l -> match pop q with
                            | None => l = []
                            | Some (e, q') => (exists l', Permutation l (e :: l') /\ holds q' l') /\ forall e', In e' l -> ole (fst e) (fst e')
                            end).
Definition min_queue {F : ordT} {Q : Type} (qnew : Q) (push : F * nat -> Q -> Q) (pop : Q -> option ((F * nat) * Q)) : Prop :=
  exists holds, queue_holds qnew push pop holds.
(** and of the graph: [adj u] lists the edges leaving [u] *)
Definition adjacency {F : ordT} (edges : list (nat * nat * F)) (adj : nat -> list (nat * F)) : Prop :=
  forall u, Permutation (adj u) (map (fun e => (snd (fst e), snd e)) (filter (fun e => fst (fst e) =? u) edges)).

Lemma filter_shorter {A} (p : A -> bool) l : length (filter p l) <= length l.
Proof. induction l as [|a l IH]; cbn [filter length]; auto. destruct (p a); cbn [length]; lia. Qed.

Section Correct.
  Context {F : ordT} (add : F -> F -> F) (z : F).
  Hypothesis Hadd : nonneg_add add z.
  Hypothesis Hmono : forall a b w, ole a b -> ole (add a w) (add b w).
  Context {Q : Type}.
  Variables (qnew : Q) (push : F * nat -> Q -> Q) (pop : Q -> option ((F * nat) * Q)) (holds : Q -> list (F * nat) -> Prop) (adj : nat -> list (nat * F)) (edges : list (nat * nat * F)) (n : nat) (x : nat).
  Hypothesis Hpop : queue_holds qnew push pop holds.
  Hypothesis Hadj : adjacency edges adj.
  Hypothesis Hw : weighted_digraph n z edges.
  Notation wk := (walk add z (edge_of edges) x).

  Lemma adj_edge u y w : In (y, w) (adj u) <-> In (u, y, w) edges.
  Proof.
    split.
    - intros H. apply (Permutation_in _ (Hadj u)), in_map_iff in H. destruct H as ([[a b] c] & [= <- <-] & H). apply filter_In in H. destruct H as [H E]. cbn [fst snd] in E. apply Nat.eqb_eq in E. now subst a.
    - intros H. apply (Permutation_in _ (Permutation_sym (Hadj u))), in_map_iff. exists (u, y, w). split; auto. apply filter_In. split; auto. cbn [fst]. apply Nat.eqb_refl.
  Qed.
  Lemma wk_pos y d : wk y d -> ole z d.
  Proof. induction 1 as [|u y d w Hk IH Ha]; [apply ole_refl|]. apply Hw in Ha. destruct Hadd as [_ H]. eapply ole_trans; [exact IH|]. apply H; tauto. Qed.
  Lemma add_up d w u y : wk u d -> In (u, y, w) edges -> ole d (add d w).
  Proof. intros Hk Ha. apply Hw in Ha. destruct Hadd as [_ H]. apply H; [exact (wk_pos Hk)|tauto]. Qed.

  (** scores are lengths of walks; queued entries are not below the scores, and the score of an unvisited node is queued *)
  Record good (s : @dstate F Q) (l : list (F * nat)) : Prop := Good {
    g_holds : holds (queue s) l;
    g_walk : forall v d, scores s v = Some d -> wk v d;
    g_start : exists d, scores s x = Some d /\ ole d z;
    g_queue : forall d v, In (d, v) l -> exists e, scores s v = Some e /\ ole e d;
    g_queued : forall v d, scores s v = Some d -> ~ In v (visited s) -> In (d, v) l;
    g_visited : forall v, In v (visited s) -> exists d, scores s v = Some d /\ forall d', wk v d' -> ole d d' }.
  (** the edges leaving the visited nodes have been relaxed *)
  Definition relaxed (s : @dstate F Q) : Prop :=
    forall u y w d, In u (visited s) -> scores s u = Some d -> In (u, y, w) edges -> exists e, scores s y = Some e /\ ole e (add d w).

  Lemma visited_spec (s : @dstate F Q) v : is_visited s v = true <-> In v (visited s).
  Proof. unfold is_visited. destruct (in_dec Nat.eq_dec v (visited s)); split; auto; discriminate. Qed.

  (** below a bound for the queue, walks end in visited nodes *)
  Lemma frontier (s : @dstate F Q) l b : good s l -> relaxed s -> (forall e, In e l -> ole b (fst e)) -> forall v d, wk v d -> (In v (visited s) /\ exists e, scores s v = Some e /\ ole e d) \/ ole b d.
  Proof.
    intros Hg Hr Hb. assert (Hdone : forall y e d, scores s y = Some e -> ole e d -> (In y (visited s) /\ exists e, scores s y = Some e /\ ole e d) \/ ole b d).
    { intros y e d He Hle. destruct (in_dec Nat.eq_dec y (visited s)) as [Hi|Hi]; [left; eauto|]. right. pose proof (g_queued Hg _ He Hi) as Hq. apply Hb in Hq. eapply ole_trans; eauto. }
    induction 1 as [|u y d w Hk IH Ha].
    - destruct (g_start Hg) as (d & E & Hd). eauto.
    - destruct IH as [(Hi & e & He & Hle)|Hle].
      + destruct (Hr u y w e Hi He Ha) as (e' & He' & Hle'). eapply Hdone; [exact He'|]. eapply ole_trans; [exact Hle'|]. now apply Hmono.
      + right. eapply ole_trans; [exact Hle|]. eapply add_up; eauto.
  Qed.

  (** ** one pass over the edges of a node *)
  Section Relax.
    Variables (node : nat) (ns : F).
    (** [ns] is the length of a shortest walk to [node] *)
    Hypothesis Hns : wk node ns.
    Hypothesis Hmin : forall d, wk node d -> ole ns d.

    (** what holds while the edges of [node] are relaxed: [node] is not visited and not queued, the rest is good *)
    Record busy (s : @dstate F Q) (l : list (F * nat)) : Prop := Busy {
      b_holds : holds (queue s) l;
      b_walk : forall v d, scores s v = Some d -> wk v d;
      b_start : exists d, scores s x = Some d /\ ole d z;
      b_queue : forall d v, In (d, v) l -> exists e, scores s v = Some e /\ ole e d;
      b_queued : forall v d, scores s v = Some d -> ~ In v (visited s) -> v <> node -> In (d, v) l;
      b_visited : forall v, In v (visited s) -> exists d, scores s v = Some d /\ forall d', wk v d' -> ole d d';
      b_node : scores s node = Some ns /\ ~ In node (visited s) }.

    (** what a step leads to *)
    Definition step_to (s s' : @dstate F Q) (l l' : list (F * nat)) (es : list (nat * F)) : Prop :=
      busy s' l' /\ visited s' = visited s /\ length l' <= length es + length l /\
      (forall y w, In (y, w) es -> exists d, scores s' y = Some d /\ ole d (add ns w)) /\
      (forall v d, scores s v = Some d -> exists d', scores s' v = Some d' /\ ole d' d) /\
      (forall v, In v (visited s) -> scores s' v = scores s v).
    Lemma relax_cases (s : @dstate F Q) l e : busy s l -> In (node, fst e, snd e) edges -> exists l', step_to s (relax add push ns s e) l l' [e].
    Proof.
      intros Hb He. destruct e as [y w]. cbn [fst snd] in *. assert (Hwalk : wk y (add ns w)) by (econstructor; eauto).
      assert (Hnew : ~ In y (visited s) -> (forall old, scores s y = Some old -> olt (add ns w) old) ->
        exists l', step_to s (DState (set_score (scores s) y (add ns w)) (visited s) (push (add ns w, y) (queue s))) l l' [(y, w)]).
      { intros Hnv Hlt. set (s' := DState _ _ _). assert (Hny : y <> node). { intros ->. destruct Hb as [_ _ _ _ _ _ [E _]]. specialize (Hlt _ E). apply olt_not_le in Hlt. apply Hlt. eapply add_up; eauto. }
        assert (Hs' : forall v d, scores s v = Some d -> exists d', scores s' v = Some d' /\ ole d' d).
        { intros v d Hd. unfold s'. cbn [scores]. unfold set_score. destruct (Nat.eqb_spec v y) as [->|]; [exists (add ns w); split; auto; apply olt_le; auto|exists d; split; auto; apply ole_refl]. }
        exists ((add ns w, y) :: l). split; [|split; [reflexivity|split; [cbn [length]; lia|split; [|split; auto]]]].
        - constructor.
          + unfold s'. cbn [queue]. apply Hpop, (b_holds Hb).
          + intros v d. unfold s'. cbn [scores]. unfold set_score. destruct (Nat.eqb_spec v y) as [->|]; [intros [= <-]; auto|apply (b_walk Hb)].
          + destruct (b_start Hb) as (d & Ed & Hd). destruct (Hs' _ _ Ed) as (d' & Ed' & Hle). exists d'. split; auto. eapply ole_trans; eauto.
          + intros d v [[= <- <-]|Hin]; [exists (add ns w); split; [unfold s', set_score; cbn [scores]; now rewrite Nat.eqb_refl|apply ole_refl]|].
            destruct (b_queue Hb _ _ Hin) as (e & Ee & Hle). destruct (Hs' _ _ Ee) as (e' & Ee' & Hle'). exists e'. split; auto. eapply ole_trans; eauto.
          + intros v d. unfold s'. cbn [scores visited]. unfold set_score. destruct (Nat.eqb_spec v y) as [->|]; [intros [= <-] _ _; now left|]. intros Hd Hv Hvn. right. now apply (b_queued Hb).
          + intros v Hv. cbn [visited s'] in Hv. unfold s'. cbn [scores]. unfold set_score. destruct (Nat.eqb_spec v y) as [->|]; [contradiction|]. now apply (b_visited Hb).
          + unfold s'. cbn [scores visited]. unfold set_score. destruct (Nat.eqb_spec node y) as [->|]; [congruence|apply (b_node Hb)].
        - intros y' w' [[= <- <-]|[]]. exists (add ns w). unfold s'. cbn [scores]. unfold set_score. rewrite Nat.eqb_refl. split; [reflexivity|apply ole_refl].
        - intros v Hv. unfold s'. cbn [scores]. unfold set_score. destruct (Nat.eqb_spec v y) as [->|]; [contradiction|auto]. }
      assert (Hkeep : forall d, scores s y = Some d -> ole d (add ns w) -> exists l', step_to s s l l' [(y, w)]).
      { intros d Ed Hle. exists l. split; auto. split; auto. split; [cbn [length]; lia|]. split; [intros y' w' [[= <- <-]|[]]; eauto|]. split; auto. intros v e Ee. exists e. split; auto. apply ole_refl. }
      unfold relax. cbn [fst snd]. destruct (is_visited s y) eqn:Ev.
      - apply visited_spec in Ev. destruct (b_visited Hb _ Ev) as (d & Ed & Hd). exact (Hkeep d Ed (Hd _ Hwalk)).
      - assert (Hnv : ~ In y (visited s)) by (rewrite <- visited_spec; congruence). assert (Hsy : (exists old, scores s y = Some old) \/ scores s y = None) by (destruct (scores s y); eauto). destruct Hsy as [[old Es]|Es].
        + rewrite Es. destruct (oltb_spec (add ns w) old) as [Hlt|Hno]; [apply (Hnew Hnv); intros o Eo; rewrite Es in Eo; injection Eo as <-; exact Hlt|]. apply (Hkeep old Es). now apply ole_not_lt.
        + rewrite Es. apply (Hnew Hnv). intros o Eo. congruence.
    Qed.
    Lemma relax_all es : forall (s : @dstate F Q) l, busy s l -> (forall y w, In (y, w) es -> In (node, y, w) edges) ->
      exists l', step_to s (fold_left (relax add push ns) es s) l l' es.
    Proof.
      induction es as [|e es IH]; intros s l Hb Hl; cbn [fold_left].
      - exists l. split; auto. split; auto. split; [auto|]. split; [intros y w []|]. split; auto. intros v d Hd. exists d. split; auto. apply ole_refl.
      - destruct (@relax_cases s l e Hb) as (l1 & B1 & B2 & B3 & B4 & B5 & B6); [apply Hl; left; now destruct e|].
        destruct (IH (relax add push ns s e) l1 B1) as (l2 & C1 & C2 & C3 & C4 & C5 & C6); [intros y w Hin; apply Hl; now right|].
        exists l2. split; auto. split; [congruence|]. split; [cbn [length] in *; lia|]. split; [|split].
        + intros y w [->|Hin]; [|auto]. destruct (B4 y w (or_introl eq_refl)) as (d & Ed & Hd). destruct (C5 _ _ Ed) as (d' & Ed' & Hd'). exists d'. split; auto. eapply ole_trans; eauto.
        + intros v d Hd. destruct (B5 _ _ Hd) as (d' & Ed' & Hd'). destruct (C5 _ _ Ed') as (d'' & Ed'' & Hd''). exists d''. split; auto. eapply ole_trans; eauto.
        + intros v Hv. rewrite C6 by (rewrite B2; exact Hv). now apply B6.
    Qed.
  End Relax.

  (** the number of edges leaving unvisited nodes *)
  Definition left_edges (vis : list nat) : nat := length (filter (fun e : nat * nat * F => if in_dec Nat.eq_dec (fst (fst e)) vis then false else true) edges).
  Lemma left_cons v vis : ~ In v vis -> left_edges (v :: vis) + length (adj v) = left_edges vis.
  Proof.
    intros Hv. rewrite (Permutation_length (Hadj v)), map_length. unfold left_edges. clear Hadj Hw.
    induction edges as [|[[a b] w] l IH]; auto. cbn [filter fst snd length]. destruct (in_dec Nat.eq_dec a (v :: vis)) as [Hi|Hi], (in_dec Nat.eq_dec a vis) as [Hj|Hj], (Nat.eqb_spec a v) as [E|E]; cbn [length]; subst; try lia.
    all: try contradiction; simpl in Hi; try (destruct Hi as [E'|]; [|contradiction]; congruence); exfalso; apply Hi; auto.
  Qed.

  Lemma loop_correct : forall fuel (s : @dstate F Q) l, good s l -> relaxed s -> length l + left_edges (visited s) < fuel ->
    exists s', dijkstra_loop add push pop adj fuel s = Ok s' /\ good s' [] /\ relaxed s'.
  Proof.
    induction fuel as [|fuel IH]; intros s l Hg Hr Hf; [lia|]. cbn [dijkstra_loop]. pose proof (proj2 (proj2 Hpop) (queue s) l (g_holds Hg)) as Hp.
    destruct (pop (queue s)) as [[[ns node] q]|]; [|subst l; exists s; auto].
    destruct Hp as [(l0 & HP & Hq0) Hmin]. cbn [fst] in Hmin. pose proof (Permutation_length HP) as Hlen. cbn [length] in Hlen.
    assert (Hin : In (ns, node) l) by (apply (Permutation_in _ (Permutation_sym HP)); now left).
    assert (Hsub : forall e, In e l0 -> In e l) by (intros e He; apply (Permutation_in _ (Permutation_sym HP)); now right).
    destruct (is_visited (DState (scores s) (visited s) q) node) eqn:Ev.
    - apply visited_spec in Ev. cbn [visited] in Ev. apply IH with (l := l0); [| |cbn [visited]; lia].
      + destruct Hg as [G0 G1 G2 G3 G4 G5]. constructor; cbn [scores queue visited]; auto. intros v d Hd Hv. pose proof (G4 v d Hd Hv) as Hq. apply (Permutation_in _ HP) in Hq. destruct Hq as [[= <- <-]|]; [contradiction|auto].
      + exact Hr.
    - assert (Hnv : ~ In node (visited s)) by (intros Hi; rewrite (proj2 (visited_spec _ _)) in Ev; [discriminate|exact Hi]).
      destruct (g_queue Hg _ _ Hin) as (e & Ee & Hle). pose proof (Hmin _ (g_queued Hg _ Ee Hnv)) as Hge. cbn [fst] in Hge. pose proof (ole_antisym Hle Hge) as E. subst e.
      assert (Hshort : forall d, wk node d -> ole ns d). { intros d Hk. destruct (frontier Hg Hr Hmin Hk) as [(Hi & _)|H]; [contradiction|exact H]. }
      set (s0 := DState (scores s) (visited s) q).
      assert (Hb : busy node ns s0 l0).
      { destruct Hg as [G0 G1 G2 G3 G4 G5]. constructor; cbn [scores queue visited s0]; auto. intros v d Hd Hv Hvn. pose proof (G4 v d Hd Hv) as Hq. apply (Permutation_in _ HP) in Hq. destruct Hq as [[= <- <-]|]; [contradiction|auto]. }
      destruct (relax_all (g_walk Hg _ Ee) Hshort (adj node) Hb) as (l1 & C1 & C2 & C3 & C4 & C5 & C6); [intros y w; apply adj_edge|]. fold s0.
      set (s1 := fold_left (relax add push ns) (adj node) s0) in *. apply IH with (l := l1).
      + destruct C1 as [B0 B1 B2 B3 B4 B5 B6]. constructor; cbn [scores queue visited mark]; auto.
        * intros v d Hd Hv. apply B4; [exact Hd|intros Hi; apply Hv; now right|intros ->; apply Hv; now left].
        * intros v [<-|Hv]; [exists ns; split; [apply B6|exact Hshort]|auto].
      + intros u y w d Hu Hd Ha. cbn [mark scores visited] in *. destruct Hu as [<-|Hu].
        * destruct (b_node C1) as [En _]. rewrite En in Hd. injection Hd as <-. apply C4. now apply adj_edge.
        * rewrite C2 in Hu. cbn [visited s0] in Hu. rewrite (C6 u Hu) in Hd. cbn [scores s0] in Hd. destruct (Hr u y w d Hu Hd Ha) as (e & He & Hle2). destruct (C5 y e He) as (e' & He' & Hle3). exists e'. split; auto. eapply ole_trans; eauto.
      + cbn [mark visited]. rewrite C2. cbn [visited s0] in *. pose proof (left_cons _ _ Hnv). lia.
  Qed.

  Theorem dijkstra_correct fuel : S (length edges) < fuel -> exists dist, dijkstra add z qnew push pop adj fuel x = Ok dist /\
    forall y, (forall d, dist y = Some d -> shortest add z (edge_of edges) x y d) /\ (dist y = None -> forall d, ~ wk y d).
  Proof.
    intros Hf. destruct (@loop_correct fuel (dijkstra_start z qnew push x) [(z, x)]) as (s & Es & Hg & Hr).
    - constructor; cbn [dijkstra_start scores queue visited]; unfold set_score.
      + apply Hpop, Hpop.
      + intros v d. destruct (Nat.eqb_spec v x) as [->|]; [|discriminate]. intros [= <-]. constructor.
      + exists z. rewrite Nat.eqb_refl. split; auto. apply ole_refl.
      + intros d v [[= <- <-]|[]]. exists z. rewrite Nat.eqb_refl. split; auto. apply ole_refl.
      + intros v d. destruct (Nat.eqb_spec v x) as [->|]; [|discriminate]. intros [= <-] _. now left.
      + intros v [].
    - intros u y w d [].
    - cbn [dijkstra_start visited length]. assert (left_edges [] <= length edges); [|lia]. unfold left_edges. apply filter_shorter.
    - exists (scores s). unfold dijkstra. rewrite Es. cbn [bind]. split; auto.
      assert (Hall : forall v d, wk v d -> exists e, scores s v = Some e /\ ole e d).
      { intros v d Hk. induction Hk as [|u y d w Hk IH Ha].
        - apply (g_start Hg).
        - destruct IH as (e & He & Hle). assert (Hu : In u (visited s)). { destruct (in_dec Nat.eq_dec u (visited s)) as [|Hn]; auto. destruct (g_queued Hg _ He Hn). }
          destruct (Hr u y w e Hu He Ha) as (e' & He' & Hle'). exists e'. split; auto. eapply ole_trans; [exact Hle'|]. now apply Hmono. }
      intros y. split.
      + intros d Hd. split; [exact (g_walk Hg _ Hd)|]. intros d' Hk. destruct (Hall _ _ Hk) as (e & He & Hle). rewrite Hd in He. injection He as <-. exact Hle.
      + intros Hn d Hk. destruct (Hall _ _ Hk) as (e & He & _). congruence.
  Qed.
End Correct.
