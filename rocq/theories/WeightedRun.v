(** Runs of the Python functions on weighted digraphs: the shortest-path filtration, and what its Betti numbers say about
    the bars that are returned. *)
From Verif Require Import Base Fields FieldsFacts Spec Columns Matrices Reduction GrpphCells Grpph SpecGrpph SpecPath SpecWeighted GrpphFacts PropGrpph GrpphRun PropGrpphRun BettiUnique PathBetti Weighted WeightedCone PropPathHomology PropReps.
From Coq Require Import Permutation Lia.
Set Implicit Arguments.

Section Walks.
  Context {F : ordT} (add : F -> F -> F) (z : F).

  Lemma walk_ext (arc arc' : nat -> nat -> F -> Prop) x y d : (forall u v w, arc u v w -> arc' u v w) -> walk add z arc x y d -> walk add z arc' x y d.
  Proof. intros H. induction 1; [constructor|]. econstructor; eauto. Qed.
  Lemma shortest_ext (arc arc' : nat -> nat -> F -> Prop) x y d : (forall u v w, arc u v w <-> arc' u v w) -> shortest add z arc x y d -> shortest add z arc' x y d.
  Proof. 
    intros H [H1 H2]. split; [exact (@walk_ext arc arc' x y d (fun u v w => proj1 (H u v w)) H1)|].
    intros d' Hd'. apply H2. exact (@walk_ext arc' arc x y d' (fun u v w => proj2 (H u v w)) Hd').
  Qed.
  Lemma walk_vertices (arc : nat -> nat -> F -> Prop) n x y d : (forall u v w, arc u v w -> u < n /\ v < n) -> walk add z arc x y d -> x = y \/ (x < n /\ y < n).
  Proof.
    intros H. induction 1 as [|u y d w Hw IH Ha]; [now left|]. right. apply H in Ha. destruct IH as [->|[? ?]]; tauto.
  Qed.
  Lemma shortest_unique (arc : nat -> nat -> F -> Prop) x y d d' : shortest add z arc x y d -> shortest add z arc x y d' -> d = d'.
  Proof. intros [H1 H2] [H3 H4]. apply ole_antisym; auto. Qed.
  Lemma filtration_unique (arc : nat -> nat -> F -> Prop) t1 t2 : shortest_path_filtration add z arc t1 -> shortest_path_filtration add z arc t2 ->
    forall x y, t1 x y = t2 x y.
  Proof.
    intros (A1 & A2 & A3) (B1 & B2 & B3) x y. destruct (Nat.eq_dec x y) as [<-|Hne]; [now rewrite A1, B1|].
    destruct (t1 x y) as [d1|] eqn:E1, (t2 x y) as [d2|] eqn:E2; auto.
    - f_equal. eapply shortest_unique; eauto.
    - exfalso. eapply (B3 _ _ Hne E2). apply (A2 _ _ _ E1).
    - exfalso. eapply (A3 _ _ Hne E1). apply (B2 _ _ _ E2).
  Qed.
End Walks.

Section Run.
  Context {F : ordT} (add : F -> F -> F) (z inf : F) (n : nat) (edges : list (nat * nat * F)).
  Hypothesis Hadd : nonneg_add add z.
  Hypothesis Hw : weighted_digraph n z edges.

  Lemma run_ends : forall s t w, In (s, t, w) edges -> s < n /\ t < n.
  Proof. intros s t w H. apply Hw in H. tauto. Qed.
  Lemma run_ground : forall s t, In (s, t) (map fst edges) -> s < n /\ t < n.
  Proof. intros s t H. apply in_map_iff in H. destruct H as ([[i j] w] & [= <- <-] & H). eapply run_ends; eauto. Qed.
  Lemma run_arc : forall u v w, finite_edge_of inf edges u v w -> In (u, v) (map fst edges) /\ ole z w.
  Proof. intros u v w [H _]. split; [apply in_map_iff; exists (u, v, w); auto|]. apply Hw in H. tauto. Qed.
  Lemma arc_ends : forall u v w, finite_edge_of inf edges u v w -> u < n /\ v < n.
  Proof. intros u v w [H _]. eapply run_ends; eauto. Qed.
  Lemma finite_iff u v w : edge_of (finite_edges inf edges) u v w <-> finite_edge_of inf edges u v w.
  Proof. unfold edge_of, finite_edge_of, finite_edges. rewrite filter_In. cbn [snd]. destruct (oltb_spec w inf); intuition (try discriminate; auto). Qed.
  Lemma finite_digraph : weighted_digraph n z (finite_edges inf edges).
  Proof. intros u v w H. apply finite_iff in H. destruct H as [H _]. exact (Hw _ _ _ H). Qed.

  Lemma filtration_digraph time : no_overflow add z inf edges -> shortest_path_filtration add z (finite_edge_of inf edges) time -> filtered_digraph time n z inf.
  Proof.
    intros Hov (H1 & H2 & H3). split; auto. intros s t f E. pose proof (H2 _ _ _ E) as Hs.
    destruct (walk_vertices arc_ends (proj1 Hs)) as [<-|[? ?]]; [rewrite H1 in E; discriminate|].
    repeat split; auto; [exact (walk_nonneg (map fst edges) Hadd run_arc (proj1 Hs))|eapply Hov; eauto].
  Qed.

  Variable sp : list (nat * nat * F) -> nat -> nat -> option F.
  Hypothesis Hlib : shortest_path_library add z n sp.

  Lemma library_shortest s t : s < n -> t < n -> (forall d, sp (finite_edges inf edges) s t = Some d -> shortest add z (finite_edge_of inf edges) s t d) /\
    (sp (finite_edges inf edges) s t = None -> forall d, ~ walk add z (finite_edge_of inf edges) s t d).
  Proof.
    intros Hs Ht. destruct (Hlib finite_digraph Hs Ht) as [H1 H2]. split.
    - intros d Hd. eapply shortest_ext; [|exact (H1 d Hd)]. apply finite_iff.
    - intros E d Hk. apply (H2 E d). eapply walk_ext; [|exact Hk]. intros u v w. apply finite_iff.
  Qed.

  Lemma filtration_exists : exists time, shortest_path_filtration add z (finite_edge_of inf edges) time.
  Proof.
    exists (fun x y => if x =? y then None else if (x <? n) && (y <? n) then sp (finite_edges inf edges) x y else None). split; [|split].
    - intros x. now rewrite Nat.eqb_refl.
    - intros x y d. destruct (Nat.eqb_spec x y); [discriminate|]. destruct (Nat.ltb_spec x n), (Nat.ltb_spec y n); cbn [andb]; try discriminate. now apply library_shortest.
    - intros x y Hne. destruct (Nat.eqb_spec x y); [congruence|]. destruct (Nat.ltb_spec x n), (Nat.ltb_spec y n); cbn [andb].
      + now apply library_shortest.
      + intros _ d Hk. destruct (walk_vertices arc_ends Hk); lia.
      + intros _ d Hk. destruct (walk_vertices arc_ends Hk); lia.
      + intros _ d Hk. destruct (walk_vertices arc_ends Hk); lia.
  Qed.

  Lemma filtration_dijkstra time : shortest_path_filtration add z (finite_edge_of inf edges) time ->
    forall s t, s < n -> t < n -> s <> t -> sp (finite_edges inf edges) s t = time s t.
  Proof.
    intros (H1 & H2 & H3) s t Hs Ht Hne. destruct (library_shortest Hs Ht) as [H4 H5].
    destruct (sp (finite_edges inf edges) s t) as [d|] eqn:E1, (time s t) as [d'|] eqn:E2; auto.
    - f_equal. eapply shortest_unique; eauto.
    - exfalso. eapply (H3 _ _ Hne E2). apply (H4 _ eq_refl).
    - exfalso. eapply (H5 eq_refl). apply (H2 _ _ _ E2).
  Qed.
End Run.

(** ** Counting bars *)
Section Bars.
  Context {F : ordT}.
  Variables (z : F) (es : list F) (ps : list (F * F)).
  Hypothesis Hlt : forall b d, In (b, d) ps -> olt b d.

  Lemma filter_none {A} (f : A -> bool) l : length (filter f l) = 0 -> forall x, In x l -> f x = false.
  Proof. intros H x Hx. destruct (f x) eqn:E; auto. exfalso. assert (Hi : In x (filter f l)) by (apply filter_In; auto). destruct (filter f l); [destruct Hi|discriminate]. Qed.
  Lemma filter_le {A} (f g : A -> bool) l : (forall x, In x l -> f x = true -> g x = true) -> length (filter f l) <= length (filter g l).
  Proof.
    induction l as [|a l IH]; intros H; cbn [filter length]; auto. specialize (IH (fun x Hx => H x (or_intror Hx))).
    destruct (f a) eqn:E; [rewrite (H a (or_introl eq_refl) E); cbn [length]; lia|]. destruct (g a); cbn [length]; lia.
  Qed.
  Lemma filter_same {A} (f g : A -> bool) l : (forall x, In x l -> f x = true -> g x = true) -> length (filter g l) <= length (filter f l) ->
    forall x, In x l -> f x = g x.
  Proof.
    induction l as [|a l IH]; intros H Hl x Hx; [destruct Hx|]. cbn [filter] in Hl.
    pose proof (@filter_le A f g l (fun x Hx => H x (or_intror Hx))) as Hle.
    assert (Ha : f a = g a /\ length (filter g l) <= length (filter f l)).
    { destruct (f a) eqn:E; [rewrite (H a (or_introl eq_refl) E) in *; cbn [length] in Hl; split; auto; lia|]. destruct (g a); cbn [length] in Hl; [lia|auto]. }
    destruct Hx as [<-|Hx]; [tauto|]. apply IH; auto; [intros; apply H; auto; now right|tauto].
  Qed.
  Lemma filter_full {A} (f : A -> bool) l : (forall x, In x l -> f x = true) -> filter f l = l.
  Proof. induction l as [|a l IH]; intros H; cbn [filter]; auto. rewrite (H a) by now left. f_equal. apply IH. intros x Hx. apply H. now right. Qed.

  (** nothing is alive before [z], and everything alive later is alive at [z]: all bars are born at [z] *)
  Lemma births_at : (forall t, ~ ole z t -> bars_alive t t es ps = 0) -> (forall t, ole z t -> bars_alive t t es ps <= bars_alive z t es ps) ->
    (forall b, In b es -> b = z) /\ (forall b d, In (b, d) ps -> b = z).
  Proof.
    intros H0 H1.
    assert (Hz : forall b, (In b es \/ exists d, In (b, d) ps) -> ole z b).
    { intros b Hb. destruct (oleb_spec z b) as [|Hn]; auto. exfalso. pose proof (H0 _ Hn) as H. unfold bars_alive in H. destruct Hb as [Hb|(d & Hb)].
      - assert (Ha : length (filter (fun c => oleb c b) es) = 0) by lia. pose proof (filter_none _ _ Ha _ Hb) as E. cbv beta in E. destruct (oleb_spec b b) as [|Hf]; [discriminate|]. apply Hf, ole_refl.
      - assert (Ha : length (filter (fun p => oleb (fst p) b && oltb b (snd p)) ps) = 0) by lia. pose proof (filter_none _ _ Ha _ Hb) as E. cbn [fst snd] in E.
        destruct (oleb_spec b b) as [|Hf]; [|apply Hf, ole_refl]. destruct (oltb_spec b d) as [|Hf]; [discriminate|]. apply Hf, (Hlt _ _ Hb). }
    assert (Hone : forall b, ole z b -> (forall c, In c es -> oleb c z = oleb c b) /\ (forall p, In p ps -> oleb (fst p) z && oltb b (snd p) = oleb (fst p) b && oltb b (snd p))).
    { intros b Hb. pose proof (H1 _ Hb) as H. unfold bars_alive in H.
      assert (Himp : forall c, oleb c z = true -> oleb c b = true).
      { intros c. destruct (oleb_spec c z) as [Hc|]; [|discriminate]. intros _. destruct (oleb_spec c b) as [|Hf]; auto. exfalso. apply Hf. eapply ole_trans; eauto. }
      assert (Himp2 : forall p : F * F, oleb (fst p) z && oltb b (snd p) = true -> oleb (fst p) b && oltb b (snd p) = true).
      { intros p Hp. apply andb_prop in Hp. destruct Hp as [Hp1 Hp2]. apply Himp in Hp1. now rewrite Hp1, Hp2. }
      pose proof (@filter_le F (fun c => oleb c z) (fun c => oleb c b) es (fun c _ => Himp c)).
      pose proof (@filter_le (F * F) (fun p => oleb (fst p) z && oltb b (snd p)) (fun p => oleb (fst p) b && oltb b (snd p)) ps (fun p _ => Himp2 p)). split.
      - intros c Hc. apply (@filter_same F (fun c => oleb c z) (fun c => oleb c b) es (fun c _ => Himp c)); [lia|auto].
      - intros p Hp. apply (@filter_same (F * F) (fun p => oleb (fst p) z && oltb b (snd p)) (fun p => oleb (fst p) b && oltb b (snd p)) ps (fun p _ => Himp2 p)); [lia|auto]. }
    split.
    - intros b Hb. apply ole_antisym; [|apply Hz; auto]. destruct (Hone b) as [E _]; [apply Hz; auto|]. specialize (E _ Hb). destruct (oleb_spec b z) as [|_]; auto.
      destruct (oleb_spec b b) as [|Hf]; [discriminate|]. exfalso. apply Hf, ole_refl.
    - intros b d Hb. apply ole_antisym; [|apply Hz; eauto]. destruct (Hone b) as [_ E]; [apply Hz; eauto|]. specialize (E _ Hb). cbn [fst snd] in E.
      destruct (oleb_spec b z) as [|_]; auto. destruct (oleb_spec b b) as [|Hf]; [|exfalso; apply Hf, ole_refl]. destruct (oltb_spec b d) as [|Hf]; [discriminate|].
      exfalso. apply Hf, (Hlt _ _ Hb).
  Qed.

  (** bars born at [z]: those alive at [z] are all of them *)
  Lemma alive_start : (forall b, In b es -> b = z) -> (forall b d, In (b, d) ps -> b = z) -> bars_alive z z es ps = length es + length ps.
  Proof.
    intros H1 H2. unfold bars_alive. rewrite !filter_full; auto.
    - intros [b d] Hb. cbn [fst snd]. pose proof (H2 _ _ Hb) as Eb. subst b. destruct (oleb_spec z z) as [|Hf]; [|exfalso; apply Hf, ole_refl]. destruct (oltb_spec z d) as [|Hf]; [reflexivity|]. exfalso. apply Hf. exact (Hlt _ _ Hb).
    - intros b Hb. rewrite (H1 _ Hb). destruct (oleb_spec z z) as [|Hf]; auto. exfalso. apply Hf, ole_refl.
  Qed.
  (** bars born at [z] and dead by [t]: only the essential ones are left *)
  Lemma alive_end t : (forall b, In b es -> b = z) -> (forall b d, In (b, d) ps -> ole d t) -> bars_alive z t es ps = length es.
  Proof.
    intros H1 H2. unfold bars_alive. rewrite filter_full.
    - destruct (filter (fun p => oleb (fst p) z && oltb t (snd p)) ps) as [|[b d] l] eqn:E; [cbn [length]; lia|]. exfalso.
      assert (Hi : In (b, d) (filter (fun p => oleb (fst p) z && oltb t (snd p)) ps)) by (rewrite E; now left). apply filter_In in Hi. destruct Hi as [Hi Hf].
      cbn [fst snd] in Hf. apply andb_prop in Hf. destruct Hf as [_ Hf]. destruct (oltb_spec t d) as [Hl|]; [|discriminate]. specialize (H2 _ _ Hi).
      eapply olt_irrefl. eapply olt_le_trans; eauto.
    - intros b Hb. rewrite (H1 _ Hb). destruct (oleb_spec z z) as [|Hf]; auto. exfalso. apply Hf, ole_refl.
  Qed.
  Lemma upper_bound (l : list F) : exists t, ole z t /\ forall x, In x l -> ole x t.
  Proof.
    induction l as [|a l (t & H1 & H2)]; [exists z; split; [apply ole_refl|intros x []]|]. exists (omax a t). split; [eapply ole_trans; [exact H1|apply omax_le_r]|].
    intros x [<-|Hx]; [apply omax_le_l|]. eapply ole_trans; [apply (H2 _ Hx)|apply omax_le_r].
  Qed.
End Bars.

Lemma betti1_same {K : coeffT} {F : ordT} (time : nat -> nat -> option F) n z E E' s t k : (forall e, In e E <-> In e E') -> path_betti_1 (K:=K) time n z E s t k -> path_betti_1 (K:=K) time n z E' s t k.
Proof.
  intros H (I & bars & Z & H1 & H2 & H3 & H4 & H5). exists I, bars, Z. split; auto. split; auto.
  assert (Hc : forall e, cycle_1 (K:=K) time n z E s e <-> cycle_1 (K:=K) time n z E' s e).
  { intros e. unfold cycle_1, edges_at, grounded_edge_at. split; intros [A B]; (split; [|auto]); intros x y Hne; specialize (A x y Hne); pose proof (H (x, y)); tauto. }
  split; [intros b Hb; apply Hc; auto|]. split; [|auto]. intros e He. apply H4. now apply Hc.
Qed.
