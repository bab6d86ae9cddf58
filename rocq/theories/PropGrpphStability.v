(** Property theorem C91: the diagram of grpph under a perturbation of the weights, bar by bar. *)
From Verif Require Import Base Fields FieldsFacts Spec LinAlg Columns ColumnsFacts Matrices Reduction SpecPath SpecPH Grpph SpecGrpph GrpphRun Persistence SpecWeighted Weighted WeightedRun ShortestPaths PropWeighted PropStability SpecBottleneck Matching Examples.
From Coq Require Import Permutation Lia.
Set Implicit Arguments.

Definition above {F : ordT} (t : F) (l : list F) : nat := length (filter (fun x => oltb t x) l).
Lemma above_perm {F : ordT} (t : F) l l' : Permutation l l' -> above t l = above t l'.
Proof. unfold above. induction 1; cbn [filter]; auto; [destruct (oltb t x); cbn [length]; auto|destruct (oltb t x), (oltb t y); auto|congruence]. Qed.
Lemma above_cons {F : ordT} (t : F) x l : above t (x :: l) = (if oltb t x then 1 else 0) + above t l.
Proof. unfold above. cbn [filter]. now destruct (oltb t x). Qed.
Lemma above_0 {F : ordT} (t : F) l : (forall x, In x l -> ole x t) -> above t l = 0.
Proof.
  induction l as [|a l IH]; intros H; auto. rewrite above_cons, IH by (intros x Hx; apply H; now right). destruct (oltb_spec t a) as [Hlt|]; auto. exfalso. apply olt_not_le in Hlt. apply Hlt, H. now left.
Qed.
Lemma max_split {F : ordT} (l : list F) : l <> [] -> exists x l1, Permutation l (x :: l1) /\ forall a, In a l -> ole a x.
Proof.
  induction l as [|a l IH]; [congruence|]. intros _. destruct l as [|b l]; [exists a, []; split; auto; intros c [<-|[]]; apply ole_refl|].
  destruct IH as (x & l1 & HP & Hx); [discriminate|]. destruct (ole_total a x) as [Hle|Hle].
  - exists x, (a :: l1). split; [rewrite HP; apply perm_swap|]. intros c [<-|Hc]; auto.
  - exists a, (b :: l). split; auto. intros c [<-|Hc]; [apply ole_refl|]. eapply ole_trans; [apply Hx; exact Hc|exact Hle].
Qed.
(** Two lists of the same length whose counting functions are interleaved can be matched. *)
Lemma counts_match {F : ordT} (shift : F -> F) : forall n (l l' : list F), length l = n -> length l' = n ->
  (forall y, In y l' -> above (shift y) l <= above y l') -> (forall x, In x l -> above (shift x) l' <= above x l) ->
  exists M : list (F * F), Permutation l (map fst M) /\ Permutation l' (map snd M) /\ forall x y, In (x, y) M -> ole x (shift y) /\ ole y (shift x).
Proof.
  induction n as [|n IH]; intros l l' E E' H1 H2.
  - destruct l, l'; try discriminate. exists []. split; [constructor|]. split; [constructor|]. intros x y [].
  - destruct (@max_split F l) as (x & l1 & P & Hx); [intros ->; discriminate|]. destruct (@max_split F l') as (y & l1' & P' & Hy); [intros ->; discriminate|].
    assert (In x l) by (apply (Permutation_in _ (Permutation_sym P)); now left). assert (In y l') by (apply (Permutation_in _ (Permutation_sym P')); now left).
    assert (Hone : forall (s : F -> F) k k' a b ka kb, Permutation k (a :: ka) -> (forall c, In c k -> ole c a) -> Permutation k' (b :: kb) -> (forall c, In c k' -> ole c b) ->
      (forall w, In w k' -> above (s w) k <= above w k') -> ole a (s b) /\ forall w, In w kb -> above (s w) ka <= above w kb).
    { clear. intros s k k' a b ka kb P Ha P' Hb H. split.
      - assert (Hin : In b k') by (apply (Permutation_in _ (Permutation_sym P')); now left). specialize (H b Hin). rewrite (@above_0 F b k') in H by auto.
        rewrite (@above_perm F (s b) _ _ P), above_cons in H. destruct (oltb_spec (s b) a) as [|Hn]; [lia|]. now apply ole_not_lt.
      - intros w Hw. assert (Hin : In w k') by (apply (Permutation_in _ (Permutation_sym P')); now right). specialize (H w Hin).
        rewrite (@above_perm F (s w) _ _ P), (@above_perm F w _ _ P'), !above_cons in H. destruct (oltb_spec (s w) a) as [|Hn]; [destruct (oltb w b); lia|].
        rewrite above_0; [lia|]. intros c Hc. eapply ole_trans; [apply Ha; apply (Permutation_in _ (Permutation_sym P)); now right|]. now apply ole_not_lt. }
    destruct (Hone shift l l' x y l1 l1' P Hx P' Hy H1) as [A1 A2]. destruct (Hone shift l' l y x l1' l1 P' Hy P Hx H2) as [B1 B2].
    apply Permutation_length in P as EL. apply Permutation_length in P' as EL'. cbn [length] in EL, EL'.
    destruct (IH l1 l1' ltac:(lia) ltac:(lia) A2 B2) as (M & M1 & M2 & M3). exists ((x, y) :: M). cbn [map fst snd]. split; [rewrite P; now constructor|]. split; [rewrite P'; now constructor|].
    intros a b [[= <- <-]|Hin]; auto.
Qed.

Lemma walk_positive {F : ordT} (add : F -> F -> F) (z inf : F) n (edges : list (nat * nat * F)) x y l : nonneg_add add z -> weighted_digraph n z edges -> positive_weights z edges ->
  x <> y -> walk add z (finite_edge_of inf edges) x y l -> olt z l.
Proof.
  intros Hadd Hw Hpos Hne Hwk. destruct Hwk as [|u y d w Hwk Ha]; [congruence|].
  pose proof (walk_nonneg (map fst edges) Hadd (run_arc (inf:=inf) Hw) Hwk) as Hd. destruct Ha as [Ha _]. pose proof (Hpos _ _ _ Ha). apply Hw in Ha. destruct Hadd as [_ Hadd].
  destruct (Hadd d w Hd ltac:(tauto)) as [_ Hle]. eapply olt_le_trans; eauto.
Qed.
Lemma repeat_of {A} (a : A) l : (forall x, In x l -> x = a) -> l = repeat a (length l).
Proof. induction l as [|b l IH]; intros H; auto. cbn [length repeat]. rewrite <- IH by (intros x Hx; apply H; now right). f_equal. apply H. now left. Qed.

(** [shift] bounds how far distances move (adding a constant, multiplying by a factor at least 1): every walk of one digraph has a counterpart in the other, of
    length at most the shifted length. *)
Definition walks_shift {F : ordT} (add : F -> F -> F) (z inf : F) (shift : F -> F) (edges edges' : list (nat * nat * F)) : Prop :=
  forall x y l, x <> y -> walk add z (finite_edge_of inf edges) x y l -> exists l', walk add z (finite_edge_of inf edges') x y l' /\ ole l' (shift l).
Theorem C91_grpph_stability :
  forall (HI HI' : heaps) (F : ordT) (add : F -> F -> F) (z inf : F) (n : nat) (edges edges' : list (nat * nat * F)) sp sp' (shift : F -> F),
  (N.of_nat n < 65536)%N -> nonneg_add add z ->
  weighted_digraph n z edges -> positive_weights z edges -> no_overflow add z inf edges -> shortest_path_library add z n sp ->
  weighted_digraph n z edges' -> positive_weights z edges' -> no_overflow add z inf edges' -> shortest_path_library add z n sp' ->
  (forall e, In e (map fst edges) <-> In e (map fst edges')) ->
  (forall x, ole x (shift x)) -> (forall x y, ole x y -> ole (shift x) (shift y)) ->
  walks_shift add z inf shift edges edges' -> walks_shift add z inf shift edges' edges ->
  exists M : nat, forall fuel fuel', M < fuel -> M < fuel' ->
  exists ess0 ess1 prs1 prs1',
    grpph_py HI fuel z inf sp n edges = Ok ([ess0; ess1], [[]; prs1]) /\
    grpph_py HI' fuel' z inf sp' n edges' = Ok ([ess0; ess1], [[]; prs1']) /\
    matching (fun p p' => fst p = z /\ fst p' = z /\ ole (snd p) (shift (snd p')) /\ ole (snd p') (shift (snd p))) (fun _ => False) (fun _ => False) prs1 prs1'.
Proof.
  intros HI HI' F add z inf n edges edges' sp sp' shift Hn Hadd Hw Hpos Hov Hlib Hw' Hpos' Hov' Hlib' Hsame Hup Hmono Hs Hs'.
  destruct (@C69_grpph_stability HI HI' F F add add z inf z inf n edges edges' sp sp' Hn Hw Hadd Hov Hlib Hw' Hadd Hov' Hlib' (fun e => proj1 (Hsame e))) as (M1 & S1).
  destruct (@C69_grpph_stability HI' HI F F add add z inf z inf n edges' edges sp' sp Hn Hw' Hadd Hov' Hlib' Hw Hadd Hov Hlib (fun e => proj2 (Hsame e))) as (M2 & S2).
  destruct (C58_births_and_deaths HI Hn Hw Hadd Hov Hlib) as (M3 & S3). destruct (C58_births_and_deaths HI' Hn Hw' Hadd Hov' Hlib') as (M4 & S4).
  exists (M1 + M2 + M3 + M4). intros fuel fuel' Hf Hf'.
  destruct (S1 fuel fuel' ltac:(lia) ltac:(lia)) as (a0 & a1 & b0 & b1 & a0' & a1' & b0' & b1' & E1 & E2 & C1).
  destruct (S2 fuel' fuel ltac:(lia) ltac:(lia)) as (c0 & c1 & d0 & d1 & c0' & c1' & d0' & d1' & E3 & E4 & C2).
  destruct (S3 fuel ltac:(lia)) as (ess0 & ess1 & prs1 & E5 & Z1 & D1 & R1). destruct (S4 fuel' ltac:(lia)) as (ess0' & ess1' & prs1' & E6 & Z2 & D2 & R2).
  rewrite E5 in E1, E4. rewrite E6 in E2, E3. injection E1 as <- <- <- <-. injection E4 as <- <- <- <-. injection E2 as <- <- <- <-. injection E3 as <- <- <- <-.
  assert (Hba : forall es (ps : list (F * F)) t, ole z t -> (forall b, In b es -> b = z) -> (forall b e, In (b, e) ps -> b = z) -> bars_alive t t es ps = length es + above t (map snd ps)).
  { intros es ps t Ht A B. unfold bars_alive, above. f_equal.
    - rewrite filter_full; auto. intros b Hb. rewrite (A b Hb). destruct (oleb_spec z t); auto.
    - clear A. induction ps as [|[b e] ps IH]; auto. cbn [map filter fst snd]. rewrite (B b e (or_introl eq_refl)). destruct (oleb_spec z t) as [|Hno]; [|contradiction]. cbn [andb].
      specialize (IH (fun b0 e0 H => B b0 e0 (or_intror H))). destruct (oltb t e); cbn [length]; auto. }
  assert (Hb1 : forall t, ole z t -> bars_alive t t ess1 prs1 = length ess1 + above t (map snd prs1)) by (intros t Ht; apply Hba; auto; [intros b Hb; apply Z1, in_app_iff; auto|intros b e Hin; apply (D1 _ _ Hin)]).
  assert (Hb2 : forall t, ole z t -> bars_alive t t ess1' prs1' = length ess1' + above t (map snd prs1')) by (intros t Ht; apply Hba; auto; [intros b Hb; apply Z2, in_app_iff; auto|intros b e Hin; apply (D2 _ _ Hin)]).
  assert (K1 : forall t, ole z t -> length ess1 + above (shift t) (map snd prs1) <= length ess1' + above t (map snd prs1')).
  { intros t Ht. rewrite <- Hb1, <- Hb2; auto; [|eapply ole_trans; eauto]. apply C1; auto. intros x y l' Hne Hwk Hle. destruct (Hs' x y l' Hne Hwk) as (l & Hl & Hll). exists l. split; auto. eapply ole_trans; eauto. }
  assert (K2 : forall t, ole z t -> length ess1' + above (shift t) (map snd prs1') <= length ess1 + above t (map snd prs1)).
  { intros t Ht. rewrite <- Hb1, <- Hb2; auto; [|eapply ole_trans; eauto]. apply C2; auto. intros x y l' Hne Hwk Hle. destruct (Hs x y l' Hne Hwk) as (l & Hl & Hll). exists l. split; auto. eapply ole_trans; eauto. }
  assert (Hbig : forall l : list F, exists T, ole z T /\ above T l = 0).
  { intros l. destruct l as [|a l]; [exists z; split; [apply ole_refl|auto]|]. destruct (@max_split F (z :: a :: l)) as (T & l1 & _ & HT); [discriminate|]. exists T. split; [apply HT; now left|]. apply above_0. intros x Hx. apply HT. now right. }
  assert (Eess : length ess1 = length ess1').
  { destruct (Hbig (map snd prs1)) as (T & T1 & T2). destruct (Hbig (map snd prs1')) as (T' & T1' & T2'). specialize (K1 T' T1'). specialize (K2 T T1). lia. }
  assert (Etot : length prs1 = length prs1').
  { assert (A1 : forall ps : list (F * F), (forall b e, In (b, e) ps -> olt z e) -> above z (map snd ps) = length ps).
    { induction ps as [|[b e] ps IH]; intros H; auto. cbn [map snd length]. rewrite above_cons, IH by (intros b0 e0 Hin; apply (H b0); now right). destruct (oltb_spec z e) as [|Hno]; auto. exfalso. apply Hno, (H b). now left. }
    assert (G1 : bars_alive z z ess1 prs1 <= bars_alive z z ess1' prs1').
    { apply C1; [apply ole_refl|]. intros x y l' Hne Hwk Hle. exfalso. pose proof (walk_positive Hadd Hw' Hpos' Hne Hwk) as Hlt. apply olt_not_le in Hlt. contradiction. }
    assert (G2 : bars_alive z z ess1' prs1' <= bars_alive z z ess1 prs1).
    { apply C2; [apply ole_refl|]. intros x y l' Hne Hwk Hle. exfalso. pose proof (walk_positive Hadd Hw Hpos Hne Hwk) as Hlt. apply olt_not_le in Hlt. contradiction. }
    pose proof (A1 prs1 (fun b e Hin => proj1 (proj2 (D1 b e Hin)))) as X1. pose proof (A1 prs1' (fun b e Hin => proj1 (proj2 (D2 b e Hin)))) as X2.
    rewrite Hb1, Hb2 in G1 by apply ole_refl. rewrite Hb1, Hb2 in G2 by apply ole_refl. lia. }
  assert (Ee : ess1' = ess1).
  { rewrite (repeat_of (a:=z) ess1) by (intros; apply Z1, in_app_iff; auto). rewrite (repeat_of (a:=z) ess1') by (intros; apply Z2, in_app_iff; auto). now rewrite Eess. }
  assert (Ee0 : ess0' = ess0).
  { rewrite (repeat_of (a:=z) ess0) by (intros; apply Z1, in_app_iff; auto). rewrite (repeat_of (a:=z) ess0') by (intros; apply Z2, in_app_iff; auto). f_equal.
    destruct (@representatives_exist n (map fst edges) (run_ground Hw)) as (R & HR). rewrite (R1 R HR). apply R2.
    assert (Hwc : forall x y, weakly_connected (map fst edges) x y <-> weakly_connected (map fst edges') x y).
    { intros x y. unfold weakly_connected. split; induction 1; try (apply Relation_Operators.rst_step; now apply Hsame); try apply Relation_Operators.rst_refl; try (now apply Relation_Operators.rst_sym); eapply Relation_Operators.rst_trans; eauto. }
    destruct HR as (A & B & C & D). repeat split; auto; [|intros r r' I1 I2 I3; apply D; auto; now apply Hwc]. intros v Hv. destruct (C v Hv) as (r & I1 & I2). exists r. split; auto. now apply Hwc. }
  subst ess1' ess0'. exists ess0, ess1, prs1, prs1'. split; auto. split; auto.
  destruct (@counts_match F shift (length prs1) (map snd prs1) (map snd prs1')) as (M & P1 & P2 & P3); [now rewrite map_length|now rewrite map_length| | |].
  - intros y Hy. apply in_map_iff in Hy. destruct Hy as ([b e] & <- & Hin). cbn [snd]. destruct (D2 _ _ Hin) as (_ & Hlt & _). specialize (K1 e (olt_le Hlt)). lia.
  - intros y Hy. apply in_map_iff in Hy. destruct Hy as ([b e] & <- & Hin). cbn [snd]. destruct (D1 _ _ Hin) as (_ & Hlt & _). specialize (K2 e (olt_le Hlt)). lia.
  - exists (map (fun p => ((z, fst p), (z, snd p))) M), [], []. rewrite !map_map, !app_nil_r. cbn [fst snd].
    assert (Hz : forall ps : list (F * F), (forall b e, In (b, e) ps -> b = z) -> ps = map (pair z) (map snd ps)).
    { induction ps as [|[b e] ps IH]; intros H; auto. cbn [map snd]. rewrite <- IH by (intros b0 e0 Hin; apply (H b0 e0); now right). now rewrite (H b e (or_introl eq_refl)). }
    split; [|split; [|split; [|split; intros ? []]]].
    + rewrite (Hz prs1) by (intros b e Hin; apply (D1 _ _ Hin)). rewrite <- (map_map fst (pair z)). now apply Permutation_map.
    + rewrite (Hz prs1') by (intros b e Hin; apply (D2 _ _ Hin)). rewrite <- (map_map snd (pair z)). now apply Permutation_map.
    + intros [b e] [b' e'] Hin. apply in_map_iff in Hin. destruct Hin as ([x y] & [= <- <- <- <-] & Hin). cbn [fst snd]. destruct (P3 _ _ Hin). auto.
Qed.
Print Assumptions C91_grpph_stability.

(** Every edge keeps its ends and its weight moves by at most the factor [shift] (for instance doubling) *)
Corollary C91_scaled_weights :
  forall (HI HI' : heaps) (F : ordT) (add : F -> F -> F) (z inf : F) (n : nat) (edges edges' : list (nat * nat * F)) sp sp' (shift : F -> F),
  (N.of_nat n < 65536)%N -> nonneg_add add z -> (forall a a' b b', ole a a' -> ole b b' -> ole (add a b) (add a' b')) ->
  weighted_digraph n z edges -> positive_weights z edges -> no_overflow add z inf edges -> shortest_path_library add z n sp ->
  weighted_digraph n z edges' -> positive_weights z edges' -> no_overflow add z inf edges' -> shortest_path_library add z n sp' ->
  (forall x, ole x (shift x)) -> (forall x y, ole x y -> ole (shift x) (shift y)) -> (forall x y, ole (add (shift x) (shift y)) (shift (add x y))) ->
  (forall u v w, In (u, v, w) edges -> exists w', In (u, v, w') edges' /\ ole w' (shift w) /\ (olt w inf -> olt w' inf)) ->
  (forall u v w', In (u, v, w') edges' -> exists w, In (u, v, w) edges /\ ole w (shift w') /\ (olt w' inf -> olt w inf)) ->
  exists M : nat, forall fuel fuel', M < fuel -> M < fuel' ->
  exists ess0 ess1 prs1 prs1',
    grpph_py HI fuel z inf sp n edges = Ok ([ess0; ess1], [[]; prs1]) /\
    grpph_py HI' fuel' z inf sp' n edges' = Ok ([ess0; ess1], [[]; prs1']) /\
    matching (fun p p' => fst p = z /\ fst p' = z /\ ole (snd p) (shift (snd p')) /\ ole (snd p') (shift (snd p))) (fun _ => False) (fun _ => False) prs1 prs1'.
Proof.
  intros HI HI' F add z inf n edges edges' sp sp' shift Hn Hadd Hm Hw Hpos Hov Hlib Hw' Hpos' Hov' Hlib' Hup Hmono Hsup H1 H2.
  assert (Hgen : forall e e', (forall u v w, In (u, v, w) e -> exists w', In (u, v, w') e' /\ ole w' (shift w) /\ (olt w inf -> olt w' inf)) -> walks_shift add z inf shift e e').
  { intros e e' H x y l _ Hwk. induction Hwk as [|u y d w Hwk IH [Hin Hfin]]; [exists z; split; [constructor|auto]|].
    destruct IH as (l' & Hl & Hle). destruct (H _ _ _ Hin) as (w' & Hw0 & Hle0 & Hf0). exists (add l' w'). split; [|eapply ole_trans; [apply Hm; [exact Hle|exact Hle0]|apply Hsup]].
    econstructor; [exact Hl|]. split; auto. }
  apply (@C91_grpph_stability HI HI' F add z inf n edges edges' sp sp' shift); auto. intros [u v]. rewrite !in_map_iff. split.
  - intros ([[a b] w] & [= -> ->] & Hin). destruct (H1 _ _ _ Hin) as (w' & Hin' & _). exists (u, v, w'). auto.
  - intros ([[a b] w] & [= -> ->] & Hin). destruct (H2 _ _ _ Hin) as (w' & Hin' & _). exists (u, v, w'). auto.
Qed.
Print Assumptions C91_scaled_weights.

(** The diamond of C69_ex_grpph with every weight multiplied by a factor between 1 and 2: the death times 3, 3 become 5, 4. *)
Example C91_ex :
  let edges := [(0, 1, 1); (1, 2, 2); (0, 2, 4); (2, 3, 1); (1, 3, 5)] : list (nat * nat * nat_ord) in
  let edges' := [(0, 1, 2); (1, 2, 3); (0, 2, 8); (2, 3, 1); (1, 3, 5)] : list (nat * nat * nat_ord) in
  let shift := fun x : nat_ord => 2 * x : nat_ord in
  nonneg_add (F:=nat_ord) Nat.add 0 /\ weighted_digraph (F:=nat_ord) 4 0 edges /\ weighted_digraph (F:=nat_ord) 4 0 edges' /\ positive_weights (F:=nat_ord) 0 edges /\ positive_weights (F:=nat_ord) 0 edges' /\
  (forall x, ole x (shift x)) /\ (forall x y, ole x y -> ole (shift x) (shift y)) /\ (forall x y, ole (shift x + shift y : nat_ord) (shift (x + y))) /\
  (forall u v w, In (u, v, w) edges -> exists w', In (u, v, w') edges' /\ ole w' (shift w) /\ (olt w (1000 : nat_ord) -> olt w' (1000 : nat_ord))) /\
  (forall u v w', In (u, v, w') edges' -> exists w, In (u, v, w) edges /\ ole w (shift w') /\ (olt w' (1000 : nat_ord) -> olt w (1000 : nat_ord))) /\
  grpph_py (F:=nat_ord) list_heaps 40 0 1000 (fun e => bellman (F:=nat_ord) Nat.add 0 e 4) 4 edges = Ok ([[0]; []], [[]; [(0, 3); (0, 3)]]) /\
  grpph_py (F:=nat_ord) list_heaps 40 0 1000 (fun e => bellman (F:=nat_ord) Nat.add 0 e 4) 4 edges' = Ok ([[0]; []], [[]; [(0, 5); (0, 4)]]).
Proof.
  cbv zeta. assert (Hle : forall (a b : nat_ord), ole a b <-> a <= b) by (intros a b; unfold ole; cbn [cmp nat_ord]; apply Nat.compare_le_iff).
  assert (Hlt : forall (a b : nat_ord), olt a b <-> a < b) by (intros a b; rewrite olt_not_le, Hle; lia).
  split; [split; [intros w; reflexivity|intros d w _ _; rewrite !Hle; split; [apply Nat.le_add_r|apply Nat.le_add_l]]|].
  do 2 (split; [intros u v w H; simpl in H; repeat (destruct H as [[= <- <- <-]|H]; [repeat split; auto; try lia; apply Hle; lia|]); destruct H|]).
  do 2 (split; [intros u v w H; simpl in H; repeat (destruct H as [[= <- <- <-]|H]; [apply Hlt; lia|]); destruct H|]).
  split; [intros x; apply Hle; cbn [car nat_ord] in *; lia|]. split; [intros x y; rewrite !Hle; cbn [car nat_ord] in *; lia|]. split; [intros x y; apply Hle; cbn [car nat_ord] in *; lia|].
  do 2 (split; [intros u v w H; simpl in H; repeat (destruct H as [[= <- <- <-]|H]; [eexists; split; [simpl; tauto|split; [apply Hle; lia|intros _; apply Hlt; lia]]|]); destruct H|]).
  split; vm_compute; reflexivity.
Qed.
