(** Property theorem C92: the diagrams of grpph in two arithmetics (in two ordered types, with two additions), compared bar by bar. *)
From Verif Require Import Base Fields FieldsFacts Spec LinAlg Columns ColumnsFacts Matrices Reduction SpecPath SpecPH Grpph SpecGrpph GrpphRun Persistence SpecWeighted Weighted WeightedRun ShortestPaths PropWeighted PropStability SpecBottleneck Matching Examples PropGrpphExamples PropGrpphStability.
From Coq Require Import Permutation Lia.
Set Implicit Arguments.

(** Two lists of the same length whose counting functions are interleaved can be matched: the version for two ordered types. *)
Lemma counts_match2 {F F' : ordT} (up : F -> F' -> Prop) (dn : F' -> F -> Prop) :
  (forall a b a', ole a' a -> up a b -> up a' b) -> (forall a b a', ole a' a -> dn a b -> dn a' b) ->
  forall n (l : list F) (l' : list F'), length l = n -> length l' = n ->
  (forall y, In y l' -> exists t, up t y /\ above t l <= above y l') -> (forall x, In x l -> exists t, dn t x /\ above t l' <= above x l) ->
  exists M : list (F * F'), Permutation l (map fst M) /\ Permutation l' (map snd M) /\ forall x y, In (x, y) M -> up x y /\ dn y x.
Proof.
  intros U1 D1.
  assert (Hone : forall (G G' : ordT) (r : G -> G' -> Prop) k k' a b ka kb, (forall a b a', ole a' a -> r a b -> r a' b) ->
      Permutation k (a :: ka) -> (forall c, In c k -> ole c a) -> Permutation k' (b :: kb) -> (forall c, In c k' -> ole c b) ->
      (forall w, In w k' -> exists t, r t w /\ above t k <= above w k') -> r a b /\ forall w, In w kb -> exists t, r t w /\ above t ka <= above w kb).
  { clear. intros G G' r k k' a b ka kb Hr P Ha P' Hb H. split.
    - assert (Hin : In b k') by (apply (Permutation_in _ (Permutation_sym P')); now left). destruct (H b Hin) as (t & Ht & Hc). rewrite (@above_0 G' b k') in Hc by auto.
      rewrite (@above_perm G t _ _ P), above_cons in Hc. destruct (oltb_spec t a) as [|Hn]; [lia|]. apply Hr with t; auto. now apply ole_not_lt.
    - intros w Hw. assert (Hin : In w k') by (apply (Permutation_in _ (Permutation_sym P')); now right). destruct (H w Hin) as (t & Ht & Hc). exists t. split; auto.
      rewrite (@above_perm G t _ _ P), (@above_perm G' w _ _ P'), !above_cons in Hc. destruct (oltb_spec t a) as [|Hn]; [destruct (oltb w b); lia|].
      rewrite above_0; [lia|]. intros c Hc'. eapply ole_trans; [apply Ha; apply (Permutation_in _ (Permutation_sym P)); now right|]. now apply ole_not_lt. }
  induction n as [|n IH]; intros l l' E E' H1 H2.
  - destruct l, l'; try discriminate. exists []. split; [constructor|]. split; [constructor|]. intros x y [].
  - destruct (@max_split F l) as (x & l1 & P & Hx); [intros ->; discriminate|]. destruct (@max_split F' l') as (y & l1' & P' & Hy); [intros ->; discriminate|].
    destruct (Hone F F' up l l' x y l1 l1' U1 P Hx P' Hy H1) as [A1 A2]. destruct (Hone F' F dn l' l y x l1' l1 D1 P' Hy P Hx H2) as [B1 B2].
    apply Permutation_length in P as EL. apply Permutation_length in P' as EL'. cbn [length] in EL, EL'.
    destruct (IH l1 l1' ltac:(lia) ltac:(lia) A2 B2) as (M & M1 & M2 & M3). exists ((x, y) :: M). cbn [map fst snd]. split; [rewrite P; now constructor|]. split; [rewrite P'; now constructor|].
    intros a b [[= <- <-]|Hin]; auto.
Qed.

(** Every walk of the second digraph has a counterpart in the first, whose length is below that of the walk up to the error allowed by [up]. *)
Definition walks_within {F F' : ordT} (add : F -> F -> F) (z inf : F) (edges : list (nat * nat * F)) (add' : F' -> F' -> F') (z' inf' : F') (edges' : list (nat * nat * F')) (up : F -> F' -> Prop) : Prop :=
  forall x y l', x <> y -> walk add' z' (finite_edge_of inf' edges') x y l' -> exists l, walk add z (finite_edge_of inf edges) x y l /\ up l l'.
(** [up a b]: "[a] is at most [b], up to the error"; exact at zero *)
Definition error_bound {F F' : ordT} (z : F) (z' : F') (up : F -> F' -> Prop) : Prop :=
  (forall a b a' b', ole a' a -> ole b b' -> up a b -> up a' b') /\ up z z' /\ (forall a, up a z' -> ole a z).

(** one level that bounds the counterparts of all walks of length at most [t'] *)
Lemma level_exists {F F' : ordT} (add : F -> F -> F) (z inf : F) (edges : list (nat * nat * F)) (add' : F' -> F' -> F') (z' inf' : F') (edges' : list (nat * nat * F')) (up : F -> F' -> Prop) n time' t' :
  nonneg_add add z -> weighted_digraph n z edges -> weighted_digraph n z' edges' -> shortest_path_filtration add' z' (finite_edge_of inf' edges') time' ->
  error_bound z z' up -> walks_within add z inf edges add' z' inf' edges' up -> ole z' t' ->
  exists t, ole z t /\ up t t' /\ forall x y l', x <> y -> walk add' z' (finite_edge_of inf' edges') x y l' -> ole l' t' -> exists l, walk add z (finite_edge_of inf edges) x y l /\ ole l t.
Proof.
  intros Hadd Hw Hw' Hspf (U1 & U2 & U3) Hin Ht'.
  assert (H : forall ps : list (nat * nat), exists t, ole z t /\ up t t' /\
    forall x y l', In (x, y) ps -> x <> y -> walk add' z' (finite_edge_of inf' edges') x y l' -> ole l' t' -> exists l, walk add z (finite_edge_of inf edges) x y l /\ ole l t).
  { induction ps as [|[x y] ps IH].
    - exists z. split; [apply ole_refl|]. split; [apply U1 with z z'; auto; apply ole_refl|]. intros x y l' [].
    - destruct IH as (t & H1 & H2 & H3). destruct (Nat.eq_dec x y) as [<-|Hne].
      + exists t. split; auto. split; auto. intros x0 y0 l' [[= <- <-]|Hi] Hne Hk Hle; [congruence|]. eapply H3; eauto.
      + destruct (time' x y) as [f|] eqn:Ef.
        * destruct Hspf as (S1 & S2 & S3). destruct (S2 _ _ _ Ef) as [Hk Hmin]. destruct (oleb_spec f t') as [Hle|Hle].
          -- destruct (Hin x y f Hne Hk) as (l & Hl & Hup).
             assert (Hl' : up l t') by (apply U1 with l f; auto; apply ole_refl).
             destruct (ole_total l t) as [Hlt|Hlt].
             ++ exists t. split; auto. split; auto. intros x0 y0 l' [[= <- <-]|Hi] Hne0 Hk0 Hle0; [exists l; auto|]. eapply H3; eauto.
             ++ exists l. split; [eapply ole_trans; eauto|]. split; auto. intros x0 y0 l' [[= <- <-]|Hi] Hne0 Hk0 Hle0; [exists l; split; auto; apply ole_refl|].
                destruct (H3 x0 y0 l' Hi Hne0 Hk0 Hle0) as (m & Hm & Hm'). exists m. split; auto. eapply ole_trans; eauto.
          -- exists t. split; auto. split; auto. intros x0 y0 l' [[= <- <-]|Hi] Hne0 Hk0 Hle0; [|eapply H3; eauto]. exfalso. apply Hle. eapply ole_trans; [apply Hmin; exact Hk0|exact Hle0].
        * destruct Hspf as (S1 & S2 & S3). exists t. split; auto. split; auto. intros x0 y0 l' [[= <- <-]|Hi] Hne0 Hk0 Hle0; [|eapply H3; eauto]. exfalso. exact (S3 x y Hne0 Ef l' Hk0). }
  destruct (H (list_prod (seq 0 n) (seq 0 n))) as (t & H1 & H2 & H3). exists t. split; auto. split; auto. intros x y l' Hne Hk Hle. apply (H3 x y l'); auto.
  assert (Hends : x < n /\ y < n).
  { assert (Hy : y < n) by (destruct Hk as [|u y d w Hk [Ha _]]; [congruence|apply Hw' in Ha; tauto]). split; auto. clear H H3 Hle Hy.
    induction Hk as [|u y d w Hk IH [Ha _]]; [congruence|]. destruct (Nat.eq_dec x u) as [<-|Hxu]; [apply Hw' in Ha; tauto|auto]. }
  apply in_prod; apply in_seq; lia.
Qed.

Theorem C92_two_arithmetics :
  forall (HI HI' : heaps) (F F' : ordT) (add : F -> F -> F) (add' : F' -> F' -> F') (z inf : F) (z' inf' : F') (n : nat)
    (edges : list (nat * nat * F)) (edges' : list (nat * nat * F')) sp sp' (up : F -> F' -> Prop) (dn : F' -> F -> Prop),
  (N.of_nat n < 65536)%N ->
  nonneg_add add z -> weighted_digraph n z edges -> no_overflow add z inf edges -> shortest_path_library add z n sp ->
  nonneg_add add' z' -> weighted_digraph n z' edges' -> no_overflow add' z' inf' edges' -> shortest_path_library add' z' n sp' ->
  (forall e, In e (map fst edges) <-> In e (map fst edges')) ->
  error_bound z z' up -> error_bound z' z dn ->
  walks_within add z inf edges add' z' inf' edges' up -> walks_within add' z' inf' edges' add z inf edges dn ->
  exists M : nat, forall fuel fuel', M < fuel -> M < fuel' ->
  exists (b0 b1 : nat) prs1 prs1',
    grpph_py HI fuel z inf sp n edges = Ok ([repeat z b0; repeat z b1], [[]; prs1]) /\
    grpph_py HI' fuel' z' inf' sp' n edges' = Ok ([repeat z' b0; repeat z' b1], [[]; prs1']) /\
    matching (fun p p' => fst p = z /\ fst p' = z' /\ up (snd p) (snd p') /\ dn (snd p') (snd p)) (fun _ => False) (fun _ => False) prs1 prs1'.
Proof.
  intros HI HI' F F' add add' z inf z' inf' n edges edges' sp sp' up dn Hn Hadd Hw Hov Hlib Hadd' Hw' Hov' Hlib' Hsame Hup Hdn Hs Hs'.
  destruct (filtration_exists inf Hw Hlib) as (time & Hspf). destruct (filtration_exists inf' Hw' Hlib') as (time' & Hspf').
  destruct (@C69_grpph_stability HI HI' F F' add add' z inf z' inf' n edges edges' sp sp' Hn Hw Hadd Hov Hlib Hw' Hadd' Hov' Hlib' (fun e => proj1 (Hsame e))) as (M1 & S1).
  destruct (@C69_grpph_stability HI' HI F' F add' add z' inf' z inf n edges' edges sp' sp Hn Hw' Hadd' Hov' Hlib' Hw Hadd Hov Hlib (fun e => proj2 (Hsame e))) as (M2 & S2).
  destruct (C58_births_and_deaths HI Hn Hw Hadd Hov Hlib) as (M3 & S3). destruct (C58_births_and_deaths HI' Hn Hw' Hadd' Hov' Hlib') as (M4 & S4).
  exists (M1 + M2 + M3 + M4). intros fuel fuel' Hf Hf'.
  destruct (S1 fuel fuel' ltac:(lia) ltac:(lia)) as (a0 & a1 & b0 & b1 & a0' & a1' & b0' & b1' & E1 & E2 & C1).
  destruct (S2 fuel' fuel ltac:(lia) ltac:(lia)) as (c0 & c1 & d0 & d1 & c0' & c1' & d0' & d1' & E3 & E4 & C2).
  destruct (S3 fuel ltac:(lia)) as (ess0 & ess1 & prs1 & E5 & Z1 & D1 & R1). destruct (S4 fuel' ltac:(lia)) as (ess0' & ess1' & prs1' & E6 & Z2 & D2 & R2).
  rewrite E5 in E1, E4. rewrite E6 in E2, E3. injection E1 as <- <- <- <-. injection E4 as <- <- <- <-. injection E2 as <- <- <- <-. injection E3 as <- <- <- <-. clear S1 S2 S3 S4.
  assert (Hba : forall (G : ordT) (z0 : G) es (ps : list (G * G)) t, ole z0 t -> (forall b, In b es -> b = z0) -> (forall b e, In (b, e) ps -> b = z0) -> bars_alive t t es ps = length es + above t (map snd ps)).
  { clear. intros G z0 es ps t Ht A B. unfold bars_alive, above. f_equal.
    - rewrite filter_full; auto. intros b Hb. rewrite (A b Hb). destruct (oleb_spec z0 t); auto.
    - clear A. induction ps as [|[b e] ps IH]; auto. cbn [map filter fst snd]. rewrite (B b e (or_introl eq_refl)). destruct (oleb_spec z0 t) as [|Hno]; [|contradiction]. cbn [andb].
      specialize (IH (fun b0 e0 H => B b0 e0 (or_intror H))). destruct (oltb t e); cbn [length]; auto. }
  assert (Hb1 : forall t, ole z t -> bars_alive t t ess1 prs1 = length ess1 + above t (map snd prs1)) by (intros t Ht; apply (Hba F z); auto; [intros b Hb; apply Z1, in_app_iff; auto|intros b e Hin; apply (D1 _ _ Hin)]).
  assert (Hb2 : forall t, ole z' t -> bars_alive t t ess1' prs1' = length ess1' + above t (map snd prs1')) by (intros t Ht; apply (Hba F' z'); auto; [intros b Hb; apply Z2, in_app_iff; auto|intros b e Hin; apply (D2 _ _ Hin)]).
  assert (K1 : forall t', ole z' t' -> exists t, up t t' /\ ole z t /\ length ess1 + above t (map snd prs1) <= length ess1' + above t' (map snd prs1')).
  { intros t' Ht'. destruct (@level_exists F F' add z inf edges add' z' inf' edges' up n time' t' Hadd Hw Hw' Hspf' Hup Hs Ht') as (t & T1 & T2 & T3). exists t. split; auto. split; auto.
    rewrite <- Hb1, <- Hb2 by auto. apply C1; auto. }
  assert (K2 : forall t, ole z t -> exists t', dn t' t /\ ole z' t' /\ length ess1' + above t' (map snd prs1') <= length ess1 + above t (map snd prs1)).
  { intros t Ht. destruct (@level_exists F' F add' z' inf' edges' add z inf edges dn n time t Hadd' Hw' Hw Hspf Hdn Hs' Ht) as (t' & T1 & T2 & T3). exists t'. split; auto. split; auto.
    rewrite <- Hb1, <- Hb2 by auto. apply C2; auto. }
  assert (Hbig : forall (G : ordT) (z0 : G) (l : list G), exists T, ole z0 T /\ above T l = 0).
  { clear. intros G z0 l. destruct l as [|a l]; [exists z0; split; [apply ole_refl|auto]|]. destruct (@max_split G (z0 :: a :: l)) as (T & l1 & _ & HT); [discriminate|]. exists T. split; [apply HT; now left|]. apply above_0. intros x Hx. apply HT. now right. }
  assert (Eess : length ess1 = length ess1').
  { destruct (Hbig F z (map snd prs1)) as (T & T1 & T2). destruct (Hbig F' z' (map snd prs1')) as (T' & T1' & T2'). destruct (K1 T' T1') as (u & _ & _ & U). destruct (K2 T T1) as (v & _ & _ & V). lia. }
  assert (Etot : length prs1 = length prs1').
  { assert (A1 : forall (G : ordT) (z0 : G) (ps : list (G * G)), (forall b e, In (b, e) ps -> olt z0 e) -> above z0 (map snd ps) = length ps).
    { clear. intros G z0. induction ps as [|[b e] ps IH]; intros H; auto. cbn [map snd length]. rewrite above_cons, IH by (intros b0 e0 Hin; apply (H b0); now right). destruct (oltb_spec z0 e) as [|Hno]; auto. exfalso. apply Hno, (H b). now left. }
    pose proof (A1 F z prs1 (fun b e Hin => proj1 (proj2 (D1 b e Hin)))) as X1. pose proof (A1 F' z' prs1' (fun b e Hin => proj1 (proj2 (D2 b e Hin)))) as X2.
    destruct (K1 z' (ole_refl z')) as (t & T1 & T2 & T3). destruct (K2 z (ole_refl z)) as (t' & T1' & T2' & T3'). destruct Hup as (_ & _ & U3). destruct Hdn as (_ & _ & V3).
    rewrite (ole_antisym (U3 _ T1) T2) in T3. rewrite (ole_antisym (V3 _ T1') T2') in T3'. lia. }
  assert (Hbetti : length ess0' = length ess0).
  { destruct (@representatives_exist n (map fst edges) (run_ground Hw)) as (R & HR). rewrite (R1 R HR). apply R2.
    assert (Hwc : forall x y, weakly_connected (map fst edges) x y <-> weakly_connected (map fst edges') x y).
    { intros x y. unfold weakly_connected. split; induction 1; try (apply Relation_Operators.rst_step; now apply Hsame); try apply Relation_Operators.rst_refl; try (now apply Relation_Operators.rst_sym); eapply Relation_Operators.rst_trans; eauto. }
    destruct HR as (A & B & C & D). repeat split; auto; [|intros r r' I1 I2 I3; apply D; auto; now apply Hwc]. intros v Hv. destruct (C v Hv) as (r & I1 & I2). exists r. split; auto. now apply Hwc. }
  exists (length ess0), (length ess1), prs1, prs1'.
  split; [rewrite E5; do 4 f_equal; [|f_equal]; apply repeat_of; intros; apply Z1, in_app_iff; auto|].
  split; [rewrite E6; do 4 f_equal; [rewrite <- Hbetti|rewrite Eess; f_equal]; apply repeat_of; intros; apply Z2, in_app_iff; auto|].
  destruct (@counts_match2 F F' up dn (fun a b a' H => proj1 Hup a b a' b H (ole_refl b)) (fun a b a' H => proj1 Hdn a b a' b H (ole_refl b)) (length prs1) (map snd prs1) (map snd prs1')) as (M & P1 & P2 & P3); [now rewrite map_length|now rewrite map_length| | |].
  - intros y Hy. apply in_map_iff in Hy. destruct Hy as ([b e] & <- & Hin). cbn [snd]. destruct (D2 _ _ Hin) as (_ & Hlt & _). destruct (K1 e (olt_le Hlt)) as (t & T1 & _ & T3). exists t. split; auto. lia.
  - intros y Hy. apply in_map_iff in Hy. destruct Hy as ([b e] & <- & Hin). cbn [snd]. destruct (D1 _ _ Hin) as (_ & Hlt & _). destruct (K2 e (olt_le Hlt)) as (t & T1 & _ & T3). exists t. split; auto. lia.
  - exists (map (fun p => ((z, fst p), (z', snd p))) M), [], []. rewrite !map_map, !app_nil_r. cbn [fst snd].
    assert (Hz : forall (G : ordT) (z0 : G) (ps : list (G * G)), (forall b e, In (b, e) ps -> b = z0) -> ps = map (pair z0) (map snd ps)).
    { clear. intros G z0. induction ps as [|[b e] ps IH]; intros H; auto. cbn [map snd]. rewrite <- IH by (intros b0 e0 Hin; apply (H b0 e0); now right). now rewrite (H b e (or_introl eq_refl)). }
    split; [|split; [|split; [|split; intros ? []]]].
    + rewrite (Hz F z prs1) by (intros b e Hin; apply (D1 _ _ Hin)). rewrite <- (map_map fst (pair z)). now apply Permutation_map.
    + rewrite (Hz F' z' prs1') by (intros b e Hin; apply (D2 _ _ Hin)). rewrite <- (map_map snd (pair z')). now apply Permutation_map.
    + intros [b e] [b' e'] Hin. apply in_map_iff in Hin. destruct Hin as ([x y] & [= <- <- <- <-] & Hin). cbn [fst snd]. destruct (P3 _ _ Hin). auto.
Qed.
Print Assumptions C92_two_arithmetics.

(** A directed triangle measured in two units: every length in the second is twice the length in the first, and so is the death of its cycle. *)
Example C92_ex :
  let edges := [(0, 1, 1); (1, 2, 2); (2, 0, 3)] : list (nat * nat * nat_ord) in
  let edges' := [(0, 1, 2); (1, 2, 4); (2, 0, 6)] : list (nat * nat * nat_ord) in
  let up := fun l l' : nat_ord => (2 * l <= l')%nat in let dn := fun l' l : nat_ord => (l' <= 2 * l)%nat in
  error_bound (F:=nat_ord) (F':=nat_ord) 0 0 up /\ error_bound (F:=nat_ord) (F':=nat_ord) 0 0 dn /\
  walks_within (F:=nat_ord) (F':=nat_ord) Nat.add 0 1000 edges Nat.add 0 1000 edges' up /\ walks_within (F:=nat_ord) (F':=nat_ord) Nat.add 0 1000 edges' Nat.add 0 1000 edges dn /\
  grpph_py (F:=nat_ord) list_heaps 30 0 1000 (fun e => bellman (F:=nat_ord) Nat.add 0 e 3) 3 edges = Ok ([[0]; []], [[]; [(0, 3)]]) /\
  grpph_py (F:=nat_ord) list_heaps 30 0 1000 (fun e => bellman (F:=nat_ord) Nat.add 0 e 3) 3 edges' = Ok ([[0]; []], [[]; [(0, 6)]]).
Proof.
  cbv zeta. split; [|split; [|split; [|split; [|split; vm_compute; reflexivity]]]].
  - split; [|split; [lia|]]; [intros a b a' b' H1 H2 H; apply ole_nat in H1, H2; lia|intros a H; apply ole_nat; lia].
  - split; [|split; [lia|]]; [intros a b a' b' H1 H2 H; apply ole_nat in H1, H2; lia|intros a H; apply ole_nat; lia].
  - intros x y l' _ Hw. induction Hw as [|u y d w Hw (l & Hl & Hd) [Hin Hf]]; [exists 0; split; [constructor|lia]|].
    assert (Hex : exists w0, In (u, y, w0) [(0, 1, 1); (1, 2, 2); (2, 0, 3)] /\ olt (w0 : nat_ord) (1000 : nat_ord) /\ w = 2 * w0)
      by (simpl in Hin; repeat (destruct Hin as [[= <- <- <-]|Hin]; [eexists; split; [simpl; tauto|split; [reflexivity|reflexivity]]|]); destruct Hin).
    destruct Hex as (w0 & A & B & ->). exists (l + w0). split; [econstructor; [exact Hl|split; [exact A|exact B]]|lia].
  - intros x y l' _ Hw. induction Hw as [|u y d w Hw (l & Hl & Hd) [Hin Hf]]; [exists 0; split; [constructor|lia]|].
    assert (Hex : exists w0, In (u, y, w0) [(0, 1, 2); (1, 2, 4); (2, 0, 6)] /\ olt (w0 : nat_ord) (1000 : nat_ord) /\ w0 = 2 * w)
      by (simpl in Hin; repeat (destruct Hin as [[= <- <- <-]|Hin]; [eexists; split; [simpl; tauto|split; [reflexivity|reflexivity]]|]); destruct Hin).
    destruct Hex as (w0 & A & B & ->). exists (l + 2 * w). split; [econstructor; [exact Hl|split; [exact A|exact B]]|lia].
Qed.
