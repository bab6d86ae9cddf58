(** Property theorems C74, C75: which tables of numbers the Rips program is right about, and what of them it depends on. *)
From Verif Require Import Base Fields FieldsFacts Spec LinAlg Columns ColumnsFacts Matrices Reduction Rips SpecRips SpecPath RipsCode RipsFacts RipsBasis RipsComplex PropRips RipsCohomology PropRipsCohomology SpecPH Persistence BettiUnique RipsPersistence PropRipsPersistence PropRipsCli BettiMaps BarsUnique RipsSwap PropRipsOrder PropGrpphExamples.
From Coq Require Import Permutation Sorted Lia Arith.
Set Implicit Arguments.

(** ** C74: the times recorded in the basis are the times of the simplices exactly for the tables called [rips_matrix] *)
Theorem C74_recorded_times_exact :
  forall (F : ordT) (uw : N) (z : F) (d : list (list F)) (max_dim : nat),
  wide d -> 1 <= max_dim -> codes_fit uw (length d) (max_dim + 1) ->
  exists bases, build_rips_bases uw z d max_dim = Ok bases /\
    ((forall l f c, In l bases -> In (f, c) l -> rips_filtration_value d c = Ok f) <-> rips_matrix z d).
Proof.
  intros F uw z d m Hw Hm Hfit. destruct (@C37_bases_enumerate F uw z d m Hw Hm Hfit) as (bs & E & Hlen & Hb). exists bs. split; auto. split.
  - intros H.
    assert (Hv : forall s f, simplex (length d) s -> length s <= m + 1 -> ascending_value z d s f -> diameter z d s f).
    { intros s f Hs Hls Hf. assert (Hpos : 1 <= length s) by (destruct Hs as (Hne & _); destruct s; [congruence|simpl; lia]).
      destruct (nth_error bs (length s - 1)) as [l|] eqn:En; [|apply nth_error_None in En; lia].
      destruct (Hb _ _ En) as (_ & _ & Hin). assert (Hi : In (f, code (length d) s) l) by (apply Hin; exists s; split; [exact Hs|split; [lia|split; [reflexivity|exact Hf]]]).
      pose proof (H l f _ (nth_error_In _ _ En) Hi) as Ev. destruct (filtration_value_ok z Hw Hs) as (g & Eg & Dg). rewrite Ev in Eg. injection Eg as ->. exact Dg. }
    assert (Hbe : forall i j : nat, before [i; j] i j) by (intros i j; exists [], [], []; reflexivity).
    assert (Hdiag : forall i, i < length d -> dist z d i i = z).
    { intros i Hi. assert (Hs : simplex (length d) [i]) by (split; [discriminate|split; repeat constructor; auto]).
      destruct (Hv [i] z Hs ltac:(cbn; lia)) as [(a & b & Ha & Hb' & Eab) _].
      - split; [apply ole_refl|]. split; auto. intros w v (A & B & C & Eq). destruct A as [|? [|]]; cbn in Eq; try discriminate. destruct B; discriminate.
      - destruct Ha as [<-|[]]. destruct Hb' as [<-|[]]. exact Eab. }
    split; auto. split; auto. intros i j Hij Hj.
    assert (Hs : simplex (length d) [i; j]) by (split; [discriminate|split; repeat constructor; auto; lia]).
    destruct (uval_spec z d [i; j]) as (U1 & U2 & U3).
    destruct (Hv [i; j] (uval z d [i; j]) Hs ltac:(cbn; lia) (conj U1 (conj U2 U3))) as [_ Hmax]. specialize (Hmax j i ltac:(cbn; auto) ltac:(cbn; auto)).
    destruct U3 as [U3|(w & v & Hwv & U3)]; [right; now rewrite U3 in Hmax|].
    left. assert (Ewv : w = i /\ v = j).
    { destruct Hwv as (A & B & C & Eq). destruct A as [|? A]; cbn in Eq; injection Eq as <- Eq.
      - destruct B as [|? B]; cbn in Eq; injection Eq as <- Eq; auto. destruct B; discriminate.
      - destruct A as [|? A]; cbn in Eq; [destruct B; discriminate|]. destruct A; discriminate. }
    destruct Ewv; subst. now rewrite <- U3 in Hmax.
  - intros Hd l f c Hl Hin. destruct (In_nth_error _ _ Hl) as (k & Ek). destruct (Hb _ _ Ek) as (_ & _ & H). apply H in Hin. destruct Hin as (s & Hs & _ & -> & Hf).
    destruct (filtration_value_ok z Hw Hs) as (g & Eg & Dg). rewrite Eg. f_equal. eapply diameter_unique; [exact Dg|].
    assert (Ef : f = uval z d s) by (eapply ascending_unique; [exact Hf|apply uval_spec]). subst f. apply uval_diameter; auto; apply Hs.
Qed.
Print Assumptions C74_recorded_times_exact.

(** ** The run depends on the order of the times only *)
Lemma row_lt_same {F F' R : ordT} (phi : R -> F) (phi' : R -> F') : (forall c c', ole (phi c) (phi c') <-> ole (phi' c) (phi' c')) ->
  forall c c', row_lt phi c c' <-> row_lt phi' c c'.
Proof.
  intros H c c'. unfold row_lt. assert (Hlt : olt (phi c) (phi c') <-> olt (phi' c) (phi' c')) by (rewrite !olt_not_le, (H c' c); reflexivity).
  assert (Heq : phi c = phi c' <-> phi' c = phi' c').
  { split; intros E; apply ole_antisym; apply H; rewrite E; apply ole_refl. }
  rewrite Hlt, Heq. reflexivity.
Qed.
Lemma is_pair_same {K : coeffT} {F F' C R : ordT} (phi : R -> F) (phi' : R -> F') (B : list C) (D : C -> vec K R) i j :
  (forall c c', row_lt phi c c' <-> row_lt phi' c c') -> is_pair phi B D i j -> is_pair phi' B D i j.
Proof.
  intros H (H1 & (x & Hx & Hl) & H3). assert (HL : forall (v : vec K R) k, leading phi v k <-> leading phi' v k).
  { intros v k. unfold leading. split; intros [A1 A2]; split; auto; intros r Hr; apply A2; now apply H. }
  split; auto. split; [exists x; split; auto; now apply HL|]. intros y k Hy Hk. apply HL in Hk. destruct (H3 y k Hy Hk) as [Hr| ->]; [left; now apply H|now right].
Qed.
Section Same.
  Context (HI HI' : heaps) (K : coeffT) {F F' : ordT} (uw : N) (z : F) (z' : F') (d : list (list F)) (d' : list (list F')) (m : nat).
  Hypothesis Hd : rips_matrix z d.
  Hypothesis Hd' : rips_matrix z' d'.
  Hypothesis Hlen : length d' = length d.
  Hypothesis Hm : 1 <= m.
  Hypothesis Hfit : codes_fit uw (length d) (m + 2).
  Variables (L : list N) (fuel fuel' : nat).
  Hypothesis HL : covers_simplices (length d) (m + 2) L.
  Hypothesis Hf : length L < fuel.
  Hypothesis Hf' : length L < fuel'.
  Variables (phi : N_ord -> F) (phi' : N_ord -> F').
  Hypothesis Hphi : rips_filtration z d phi.
  Hypothesis Hphi' : rips_filtration z' d' phi'.
  Hypothesis Hord : forall c c', ole (phi c) (phi c') <-> ole (phi' c) (phi' c').
  Lemma same_run : exists rc dg rc' dg',
    rips_cohomology HI (K:=K) fuel uw z d m = Ok (rc, dg) /\ rips_cohomology HI' (K:=K) fuel' uw z' d' m = Ok (rc', dg') /\
    Permutation (pairings dg) (pairings dg') /\ essential dg = essential dg'.
  Proof.
    destruct (@C44_cohomology_intrinsic HI K F uw z d m Hd Hm Hfit L fuel HL Hf) as (rc & dg & E1 & N1 & _ & H1).
    destruct (@C44_diagram_shape HI K F uw z d m Hd Hm Hfit L fuel HL Hf) as (rc0 & dg0 & E0 & _ & _ & _ & S1). rewrite E1 in E0. injection E0 as <- <-.
    pose proof Hfit as Hfit'. pose proof HL as HL'. rewrite <- Hlen in Hfit', HL'.
    destruct (@C44_cohomology_intrinsic HI' K F' uw z' d' m Hd' Hm Hfit' L fuel' HL' Hf') as (rc' & dg' & E2 & N2 & _ & H2).
    destruct (@C44_diagram_shape HI' K F' uw z' d' m Hd' Hm Hfit' L fuel' HL' Hf') as (rc0 & dg0 & E0 & _ & _ & _ & S2). rewrite E2 in E0. injection E0 as <- <-.
    exists rc, dg, rc', dg'. split; auto. split; auto. split; [|now rewrite S1, S2, Hlen].
    pose proof (@all_cells_order F z d m Hd Hm _ Hphi) as Ho.
    destruct (@spec_exists K F z d Hd) as (_ & HB & _ & _). pose proof (Dc_coboundary z d HB) as HD. set (D := Dc z d (spec_boundary z d)) in HD.
    assert (Ho' : rips_order d' phi' (m + 1) (all_cells z d m)).
    { unfold rips_order. rewrite Hlen. destruct Ho as (A & B & C). split; auto. split; auto. intros s t Hs Ht Hl Hb. apply (row_lt_same _ _ Hord). now apply C. }
    destruct (H1 phi D _ Hphi HD Ho) as [P1 _]. rewrite Hlen in H2. destruct (H2 phi' D _ Hphi' HD Ho') as [P2 _].
    assert (Hrev : forall c c' : rev_ord rips_index, row_lt (rev_filtration phi : rN -> rev_ord F) c c' <-> row_lt (rev_filtration phi' : rN -> rev_ord F') c c').
    { apply row_lt_same. intros [c] [c']. unfold rev_filtration. cbn [unrev]. unfold ole. cbn [cmp rev_ord]. apply (Hord c' c). }
    apply NoDup_Permutation; auto. intros [i j]. rewrite P1, P2. split; intros [A B]; (split; [exact A|]); eapply is_pair_same; try exact B; intros c c'; [apply Hrev|symmetry; apply Hrev].
  Qed.
End Same.

(** ** The lines printed, in terms of the diagram *)
Definition dim_of (n : nat) (c : N) : nat := match to_vec n c with Ok s => length s - 1 | _ => 0 end.
Definition line_of {F : ordT} (n : nat) (fv : N -> F) (p : rev_ord rips_index * rev_ord rips_index) : bar_line F :=
  (dim_of n (unrev (snd p)), (unrev (snd p), unrev (fst p)), (fv (unrev (snd p)), fv (unrev (fst p)))).
Lemma rips_main_lines (HI : heaps) (F : ordT) (uw : N) (z : F) (sub : F -> F -> F) (eps : F) (d : list (list F)) (m : nat) :
  rips_matrix z d -> 1 <= m -> codes_fit uw (length d) (m + 2) ->
  forall (L : list N) (fuel : nat), covers_simplices (length d) (m + 2) L -> length L < fuel ->
  forall fv : N -> F, rips_filtration z d fv ->
  exists rc dg, rips_cohomology HI (K:=Z2_coeff) fuel uw z d m = Ok (rc, dg) /\
    rips_main HI fuel uw z sub eps d m =
      Ok (map (fun k => binomial (length d) (k + 1)) (seq 0 (m + 1)), (if length d =? 0 then [] else [(0, code (length d) [0], z)]),
          filter (fun line => oltb eps (sub (snd (snd line)) (fst (snd line)))) (map (line_of (length d) fv) (pairings dg))).
Proof.
  intros Hd Hm Hfit L fuel HL Hfuel fv Hphi.
  destruct (@C44_diagram_shape HI Z2_coeff F uw z d m Hd Hm Hfit L fuel HL Hfuel) as (rc & dg & Erun & S1 & S2 & S3 & S4).
  exists rc, dg. split; auto. pose proof (proj1 Hd) as Hsq. set (n := length d) in *.
  assert (Hdm : forall s, simplex n s -> rips_dimension n (code n s) = Ok (dim_of n (code n s)) /\ dim_of n (code n s) = length s - 1).
  { intros s Hs. unfold dim_of, rips_dimension. rewrite to_vec_code by apply Hs. cbn [bind]. split; auto.
    destruct s; [destruct Hs; congruence|]. cbn [length]. rewrite Nat.sub_succ, Nat.sub_0_r. reflexivity. }
  assert (Hfv : forall s, simplex n s -> rips_filtration_value d (code n s) = Ok (fv (code n s)) /\ diameter z d s (fv (code n s))).
  { intros s Hs. destruct (filtration_value_ok z Hsq Hs) as (f & E & Hf). pose proof (Hphi s Hs) as Hf'. rewrite (diameter_unique Hf Hf') in E. auto. }
  assert (Hess : map (fun c : rev_ord rips_index => (dim_of n (unrev c), unrev c, fv (unrev c))) (essential dg) = (if n =? 0 then [] else [(0, code n [0], z)])).
  { rewrite S4. destruct (Nat.eqb_spec n 0) as [E0|Hn]; auto. cbn [map unrev].
    assert (Hs0 : simplex n [0]) by (split; [discriminate|split; repeat constructor; lia]).
    rewrite (proj2 (Hdm _ Hs0)). cbn [length Nat.sub]. do 2 f_equal. destruct (proj1 (proj2 (Hfv _ Hs0))) as (i & j & [<-|[]] & [<-|[]] & Eq).
    rewrite <- Eq. apply Hd. fold n. lia. }
  unfold rips_main. rewrite coboundary_built by auto. cbn [bind].
  rewrite (@mapM_pure _ _ _ (fun k => binomial n (k + 1))).
  2:{ intros k Hk. apply in_seq in Hk. assert (Hk' : k <= m) by lia. destruct (rsub z d Hm Hk') as (sb & E & Hen). rewrite E. cbn [bind]. f_equal.
      rewrite (proj1 Hen). unfold rev_basis. rewrite map_length, rev_length. apply cells_count; auto. }
  cbn [bind]. rewrite run_unfold in Erun by auto. unfold RD in Erun. rewrite Erun. cbn [bind].
  fold n. rewrite (@mapM_pure _ _ _ (fun c : rev_ord rips_index => (dim_of n (unrev c), unrev c, fv (unrev c)))).
  2:{ intros c Hc. rewrite S4 in Hc. destruct (Nat.eqb_spec n 0) as [E0|Hn]; [destruct Hc|]. destruct Hc as [<-|[]].
      assert (Hs0 : simplex n [0]) by (split; [discriminate|split; repeat constructor; lia]). cbn [reverse_f m_fil unrev].
      change (m_fil (fst (matrix_with_basis (rips_coboundary (K:=Z2_coeff) uw d) (tb z d m))) (code n [0])) with (rips_filtration_value d (code n [0])).
      rewrite (proj1 (Hfv _ Hs0)). cbn [bind]. rewrite (proj1 (Hdm _ Hs0)). reflexivity. }
  cbn [bind]. rewrite (@flat_mapM_pure _ _ _ (fun p : rev_ord rips_index * rev_ord rips_index =>
      filter (fun line : bar_line F => oltb eps (sub (snd (snd line)) (fst (snd line)))) [line_of n fv p])).
  2:{ intros [i j] Hij. apply S1 in Hij. destruct Hij as (s & t & fs & ft & Hs & Ht & Hls & Hlt & -> & -> & Ds & Dt & Hle). unfold line_of. cbn [fst snd reverse_f m_fil unrev].
      change (m_fil (fst (matrix_with_basis (rips_coboundary (K:=Z2_coeff) uw d) (tb z d m)))) with (rips_filtration_value (F:=F) d).
      rewrite (proj1 (Hfv s Hs)), (proj1 (Hfv t Ht)), (proj1 (Hdm s Hs)). cbn [bind unrev filter snd fst]. reflexivity. }
  cbn [bind]. rewrite Hess. f_equal. f_equal. apply flat_map_filter.
Qed.
Lemma permutation_filter {A} (p : A -> bool) (l l' : list A) : Permutation l l' -> Permutation (filter p l) (filter p l').
Proof.
  induction 1 as [|x l l' H IH|x y l|l l' l'' H1 IH1 H2 IH2]; auto; cbn [filter].
  - destruct (p x); auto.
  - destruct (p x), (p y); auto. constructor.
  - etransitivity; eauto.
Qed.

(** ** C74: nothing below the diagonal matters, nor anything at or below zero *)
Theorem C74_upper_triangle :
  forall (HI HI' : heaps) (F : ordT) (uw : N) (z : F) (sub : F -> F -> F) (eps : F) (d d' : list (list F)) (max_dim : nat),
  rips_matrix z d -> rips_matrix z d' -> length d' = length d ->
  (forall i j, i < j -> j < length d -> dist z d i j = dist z d' i j \/ ole (dist z d i j) z /\ ole (dist z d' i j) z) ->
  1 <= max_dim -> codes_fit uw (length d) (max_dim + 2) ->
  forall (L : list N) (fuel fuel' : nat), covers_simplices (length d) (max_dim + 2) L -> length L < fuel -> length L < fuel' ->
  exists sizes ess (printed printed' : list (bar_line F)),
    rips_main HI fuel uw z sub eps d max_dim = Ok (sizes, ess, printed) /\
    rips_main HI' fuel' uw z sub eps d' max_dim = Ok (sizes, ess, printed') /\
    Permutation printed printed'.
Proof.
  intros HI HI' F uw z sub eps d d' m Hd Hd' Hlen Hu Hm Hfit L fuel fuel' HL Hf Hf'.
  pose proof Hfit as Hfit'. pose proof HL as HL'. rewrite <- Hlen in Hfit', HL'.
  pose proof (some_phi_ok Hd) as Hphi.
  assert (Huv : forall s, simplex (length d) s -> uval z d s = uval z d' s).
  { intros s (Hne & Hs & Hb). assert (Hlt : forall w v, before s w v -> w < v /\ v < length d).
    { intros w v Hwv. split; [eapply before_sorted; eauto|]. destruct Hwv as (A & B & C & ->). rewrite Forall_forall in Hb. apply Hb. apply in_or_app. right. right. apply in_or_app. right. now left. }
    apply (@ascending_unique F z d' s); [|apply uval_spec]. destruct (uval_spec z d s) as (U1 & U2 & U3). split; auto. split.
    - intros w v Hwv. destruct (Hlt w v Hwv) as [A B]. destruct (Hu w v A B) as [E|[_ E]]; [rewrite <- E; auto|]. eapply ole_trans; eauto.
    - destruct U3 as [U3|(w & v & Hwv & U3)]; [now left|]. destruct (Hlt w v Hwv) as [A B]. destruct (Hu w v A B) as [E|[E _]]; [right; exists w, v; split; auto; congruence|].
      left. apply ole_antisym; auto. now rewrite <- U3. }
  assert (Hphi' : rips_filtration z d' (some_phi z d)).
  { intros s Hs. rewrite Hlen in Hs. unfold some_phi. rewrite Hlen, to_vec_code by apply Hs. rewrite Huv by auto. destruct Hs as (A & B & C). rewrite <- Hlen in C. apply uval_diameter; auto. }
  destruct (@rips_main_lines HI F uw z sub eps d m Hd Hm Hfit L fuel HL Hf _ Hphi) as (rc & dg & E1 & M1).
  destruct (@rips_main_lines HI' F uw z sub eps d' m Hd' Hm Hfit' L fuel' HL' Hf' _ Hphi') as (rc' & dg' & E2 & M2).
  destruct (@same_run HI HI' Z2_coeff F F uw z z d d' m Hd Hd' Hlen Hm Hfit L fuel fuel' HL Hf Hf' _ _ Hphi Hphi' ltac:(intros; reflexivity)) as (rc1 & dg1 & rc2 & dg2 & E1' & E2' & HP & _).
  rewrite E1 in E1'. rewrite E2 in E2'. injection E1' as <- <-. injection E2' as <- <-. rewrite Hlen in M2.
  do 4 eexists. split; [exact M1|]. split; [exact M2|]. apply permutation_filter. now apply Permutation_map.
Qed.
Print Assumptions C74_upper_triangle.

(** ** C74: a table that is not like that.  The five points below have their distances under the diagonal and zeros above; a simplex still
    appears at the largest entry between its vertices, as it does in the symmetric table, but the basis is sorted by the entries above the
    diagonal.  The program prints two loops, (2, 3) and (3, 4); the complex has one, (2, 4). *)
Definition lower5 : list (list nat_ord) := [[0;0;0;0;0];[2;0;0;0;0];[4;2;0;0;0];[1;4;3;0;0];[4;1;3;2;0]].
Definition symm5 : list (list nat_ord) := [[0;2;4;1;4];[2;0;2;4;1];[4;2;0;3;3];[1;4;3;0;2];[4;1;3;2;0]].
Lemma symm5_distance : distance_matrix (0 : nat_ord) symm5.
Proof.
  split; [intros row Hr; repeat (destruct Hr as [<-|Hr]; [reflexivity|]); destruct Hr|]. 
  assert (B : forall P : nat -> Prop, P 0 -> P 1 -> P 2 -> P 3 -> P 4 -> forall i, i < length symm5 -> P i).
  { intros P H0 H1 H2 H3 H4 i Hi. change (length symm5) with 5 in Hi. do 5 (destruct i as [|i]; [assumption|]). lia. }
  split; [|split].
  - intros i j Hi Hj. revert i Hi j Hj. refine (B _ _ _ _ _ _); refine (B _ _ _ _ _ _); reflexivity.
  - refine (B _ _ _ _ _ _); reflexivity.
  - intros i j Hi Hj. apply ole_nat. apply Nat.le_0_l.
Qed.
Theorem C74_asymmetric_refuted :
  length lower5 = length symm5 /\ square lower5 /\ distance_matrix (0 : nat_ord) symm5 /\
  (forall s f, simplex 5 s -> diameter (0 : nat_ord) lower5 s f <-> diameter (0 : nat_ord) symm5 s f) /\
  exists p p' : list (bar_line nat_ord),
    rips_main list_heaps 2000 (2 ^ 64) (0 : nat_ord) Nat.sub (0 : nat_ord) lower5 1 = Ok ([5; 10], [(0, 1%N, 0)], p) /\
    rips_main list_heaps 2000 (2 ^ 64) (0 : nat_ord) Nat.sub (0 : nat_ord) symm5 1 = Ok ([5; 10], [(0, 1%N, 0)], p') /\
    map snd (filter (fun line => fst (fst line) =? 1) p) = [(3, 4); (2, 3)] /\
    map snd (filter (fun line => fst (fst line) =? 1) p') = [(2, 4)].
Proof.
  split; [reflexivity|]. split; [intros row Hr; repeat (destruct Hr as [<-|Hr]; [reflexivity|]); destruct Hr|]. split; [apply symm5_distance|]. split.
  - intros s f (Hne & Hs & Hb).
    assert (B : forall P : nat -> Prop, P 0 -> P 1 -> P 2 -> P 3 -> P 4 -> forall i, In i s -> P i).
    { intros P H0 H1 H2 H3 H4 i Hi. rewrite Forall_forall in Hb. specialize (Hb i Hi). do 5 (destruct i as [|i]; [assumption|]). lia. }
    assert (E1 : forall i, In i s -> forall j, In j s -> dist (0 : nat_ord) symm5 i j = dist (0 : nat_ord) lower5 i j \/ dist (0 : nat_ord) symm5 i j = dist (0 : nat_ord) lower5 j i).
    { refine (B _ _ _ _ _ _); refine (B _ _ _ _ _ _); first [left; reflexivity|right; reflexivity]. }
    assert (E2 : forall i, In i s -> forall j, In j s -> ole (dist (0 : nat_ord) lower5 i j) (dist (0 : nat_ord) symm5 i j)).
    { refine (B _ _ _ _ _ _); refine (B _ _ _ _ _ _); apply ole_nat; cbn; lia. }
    assert (E3 : forall i, In i s -> forall j, In j s -> dist (0 : nat_ord) symm5 i j = dist (0 : nat_ord) symm5 j i).
    { refine (B _ _ _ _ _ _); refine (B _ _ _ _ _ _); reflexivity. }
    unfold diameter. split; intros [(i & j & Hi & Hj & E) Hmax].
    + assert (Hm' : forall i j, In i s -> In j s -> ole (dist (0 : nat_ord) symm5 i j) f) by (intros a b Ha Hb'; destruct (E1 a Ha b Hb') as [-> | ->]; auto).
      split; auto. exists i, j. split; auto. split; auto. apply ole_antisym; auto. rewrite <- E. now apply E2.
    + split; [|intros a b Ha Hb'; eapply ole_trans; [now apply E2|auto]]. destruct (E1 i Hi j Hj) as [E'|E']; rewrite E' in E; eauto.
  - do 2 eexists. split; [vm_compute; reflexivity|]. split; [vm_compute; reflexivity|]. split; reflexivity.
Qed.
Print Assumptions C74_asymmetric_refuted.

(** ** C75: only the order of the numbers on and above the diagonal matters *)
Section OrderType.
  Context {F F' : ordT} (z : F) (z' : F') (d : list (list F)) (d' : list (list F')) (n : nat).
  Hypothesis Hz : forall i, i < n -> dist z d i i = z.
  Hypothesis Hz' : forall i, i < n -> dist z' d' i i = z'.
  Hypothesis Hle : forall i j k l, i <= j -> j < n -> k <= l -> l < n ->
    ole (dist z d i j) (dist z d k l) -> ole (dist z' d' i j) (dist z' d' k l).
  Lemma uval_order s t : (forall w v, before s w v -> w < v /\ v < n) -> (forall w v, before t w v -> w < v /\ v < n) ->
    ole (uval z d s) (uval z d t) -> ole (uval z' d' s) (uval z' d' t).
  Proof.
    intros Hs Ht H. destruct (uval_spec z d s) as (_ & S2 & _). destruct (uval_spec z d t) as (_ & _ & T3).
    destruct (uval_spec z' d' s) as (_ & _ & S3). destruct (uval_spec z' d' t) as (T1 & T2 & _).
    destruct S3 as [E|(w & v & Hwv & <-)]; [now rewrite E|]. destruct (Hs w v Hwv) as [A B].
    assert (H1 : ole (dist z d w v) (uval z d t)) by (eapply ole_trans; eauto).
    destruct T3 as [E|(w' & v' & Hwv' & E)].
    - rewrite E in H1. assert (H2 : ole (dist z d w v) (dist z d v v)) by now rewrite Hz. apply Hle in H2; try lia. rename H2 into H3. clear H1. rename H3 into H1. rewrite Hz' in H1 by auto. eapply ole_trans; eauto.
    - rewrite <- E in H1. destruct (Ht w' v' Hwv') as [A' B']. apply Hle in H1; try lia. eapply ole_trans; eauto.
  Qed.
End OrderType.
(** the codes that are not those of simplices are given the first time of all *)
Definition clip (n : nat) (c : N) : list nat :=
  match to_vec n c with Ok s => if forallb (fun p => (fst p <? snd p) && (snd p <? n)) (combine s (tl s)) then s else [] | _ => [] end.
Lemma adjacent_sorted n s : forallb (fun p => (fst p <? snd p) && (snd p <? n)) (combine s (tl s)) = true -> StronglySorted lt s /\ Forall (fun v => v < n) (tl s).
Proof.
  induction s as [|a s IH]; [split; constructor|]. destruct s as [|b s]; [intros _; split; repeat constructor|].
  cbn [tl combine forallb fst snd]. intros H. apply andb_prop in H. destruct H as [H1 H2]. apply andb_prop in H1. destruct H1 as [H1 H3]. apply Nat.ltb_lt in H1, H3.
  destruct (IH H2) as [Hs Hb]. split; [|constructor; auto]. constructor; auto. inversion Hs as [|? ? Hs' Hf]; subst. constructor; auto. eapply Forall_impl; [|exact Hf]. intros x Hx. cbv beta in Hx. lia.
Qed.
Lemma clip_before n c w v : before (clip n c) w v -> w < v /\ v < n.
Proof.
  unfold clip. destruct (to_vec n c) as [s| |]; try (intros (A & B & C & E); destruct A; discriminate).
  destruct (forallb _ _) eqn:E; [|intros (A & B & C & E'); destruct A; discriminate]. apply adjacent_sorted in E. destruct E as [Hs Hb]. intros Hwv. split; [eapply before_sorted; eauto|].
  destruct Hwv as (A & B & C & ->). rewrite Forall_forall in Hb. apply Hb. destruct A; cbn [app tl]; [|apply in_or_app; right; right]; apply in_or_app; right; now left.
Qed.
Lemma clip_code n s : simplex n s -> clip n (code n s) = s.
Proof.
  intros (Hne & Hs & Hb). unfold clip. rewrite to_vec_code by auto. replace (forallb _ _) with true; auto. symmetry. clear Hne. induction s as [|a s IH]; auto.
  inversion Hs as [|? ? Hs' Hf]; subst. inversion Hb as [|? ? Ha Hb']; subst. destruct s as [|b s]; auto. cbn [tl combine forallb fst snd] in *. rewrite (IH Hs' Hb'). rewrite andb_true_r.
  inversion Hf; subst. inversion Hb'; subst. apply andb_true_intro. split; now apply Nat.ltb_lt.
Qed.
Theorem C75_order_type :
  forall (HI HI' : heaps) (K : coeffT) (F F' : ordT) (uw : N) (z : F) (z' : F') (d : list (list F)) (d' : list (list F')) (max_dim : nat),
  rips_matrix z d -> rips_matrix z' d' -> length d' = length d ->
  (forall i j k l, i <= j -> j < length d -> k <= l -> l < length d ->
     (ole (dist z d i j) (dist z d k l) <-> ole (dist z' d' i j) (dist z' d' k l))) ->
  1 <= max_dim -> codes_fit uw (length d) (max_dim + 2) ->
  forall (L : list N) (fuel fuel' : nat), covers_simplices (length d) (max_dim + 2) L -> length L < fuel -> length L < fuel' ->
  exists rc dg rc' dg',
    rips_cohomology HI (K:=K) fuel uw z d max_dim = Ok (rc, dg) /\
    rips_cohomology HI' (K:=K) fuel' uw z' d' max_dim = Ok (rc', dg') /\
    Permutation (pairings dg) (pairings dg') /\ essential dg = essential dg'.
Proof.
  intros HI HI' K F F' uw z z' d d' m Hd Hd' Hlen Hord Hm Hfit L fuel fuel' HL Hf Hf'.
  pose (phi := fun c : N_ord => uval z d (clip (length d) c)). pose (phi' := fun c : N_ord => uval z' d' (clip (length d) c)).
  apply (@same_run HI HI' K F F' uw z z' d d' m Hd Hd' Hlen Hm Hfit L fuel fuel' HL Hf Hf' phi phi').
  - intros s Hs. unfold phi. rewrite clip_code by auto. apply uval_diameter; auto; apply Hs.
  - intros s Hs. unfold phi'. rewrite Hlen in Hs |- *. rewrite clip_code by auto. destruct Hs as (A & B & C). apply uval_diameter; auto. now rewrite Hlen.
  - pose proof (proj1 (proj2 Hd)) as Hz. pose proof (proj1 (proj2 Hd')) as Hz'. rewrite Hlen in Hz'. intros c c'. unfold phi, phi'.
    split; (eapply uval_order; [exact Hz || exact Hz'|exact Hz || exact Hz'| |apply clip_before|apply clip_before]); intros i j k l H1 H2 H3 H4 H5; apply (Hord i j k l); auto.
Qed.
Print Assumptions C75_order_type.

(** The four points on a line, with zeros below the diagonal, and with the squares of their distances. *)
Definition line4_upper : list (list nat_ord) := [[0; 1; 3; 7]; [0; 0; 2; 6]; [0; 0; 0; 4]; [0; 0; 0; 0]].
Definition line4_squares : list (list nat_ord) := map (map (fun x => x * x)) line4.
Example C74_ex : rips_matrix (0 : nat_ord) line4_upper /\ ~ distance_matrix (0 : nat_ord) line4_upper /\
  (forall i j, i < j -> j < length line4 -> dist (0 : nat_ord) line4 i j = dist (0 : nat_ord) line4_upper i j) /\
  rips_main list_heaps 700 (2 ^ 64) (0 : nat_ord) Nat.sub (1 : nat_ord) line4_upper 1 =
  rips_main list_heaps 700 (2 ^ 64) (0 : nat_ord) Nat.sub (1 : nat_ord) line4 1.
Proof.
  assert (B : forall P : nat -> Prop, P 0 -> P 1 -> P 2 -> P 3 -> forall i, i < 4 -> P i).
  { intros P H0 H1 H2 H3 i Hi. do 4 (destruct i as [|i]; [assumption|]). lia. }
  split; [|split; [|split]].
  - split; [intros row Hr; repeat (destruct Hr as [<-|Hr]; [cbn; lia|]); destruct Hr|]. split; [refine (B _ _ _ _ _); reflexivity|].
    intros i j Hij Hj. right. apply ole_nat. assert (Hi : i < 4) by (cbn in Hj; lia). revert i Hi j Hj Hij.
    refine (B _ _ _ _ _); refine (B _ _ _ _ _); cbn; lia.
  - intros (_ & H & _). specialize (H 0 1 ltac:(cbn; lia) ltac:(cbn; lia)). discriminate.
  - intros i j Hij Hj. assert (Hi : i < 4) by (cbn in Hj; lia). revert i Hi j Hj Hij. refine (B _ _ _ _ _); refine (B _ _ _ _ _); intros; try reflexivity; lia.
  - vm_compute. reflexivity.
Qed.
Example C75_ex : rips_matrix (0 : nat_ord) line4 /\ rips_matrix (0 : nat_ord) line4_squares /\
  forall i j k l, i <= j -> j < length line4 -> k <= l -> l < length line4 ->
    (ole (dist (0 : nat_ord) line4 i j) (dist (0 : nat_ord) line4 k l) <-> ole (dist (0 : nat_ord) line4_squares i j) (dist (0 : nat_ord) line4_squares k l)).
Proof.
  assert (Hsq : forall i j, dist (0 : nat_ord) line4_squares i j = dist (0 : nat_ord) line4 i j * dist (0 : nat_ord) line4 i j).
  { intros i j. unfold dist, line4_squares. change (@nil nat_ord) with (map (fun x : nat => x * x) []) at 1. rewrite map_nth. change (0 : nat_ord) with ((fun x : nat => x * x) 0) at 1. now rewrite map_nth. }
  split; [apply line4_rips|]. split.
  - pose proof line4_rips as (H1 & H2 & H3). split; [|split].
    + intros row Hr. apply in_map_iff in Hr. destruct Hr as (r & <- & Hr). rewrite map_length. now apply H1.
    + intros i Hi. rewrite Hsq. rewrite H2 by exact Hi. reflexivity.
    + intros i j Hij Hj. rewrite !Hsq. destruct (H3 i j Hij Hj) as [H|H]; apply ole_nat in H; [left|right]; apply ole_nat; [nia|]. assert (E : dist (0 : nat_ord) line4 j i = 0) by lia. rewrite E. auto.
  - intros i j k l _ _ _ _. rewrite !ole_nat, !Hsq. split; intros H; nia.
Qed.
