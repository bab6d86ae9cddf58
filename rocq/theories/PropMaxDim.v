(** Property theorem C105: a larger maximal dimension adds bars and changes none. *)
From Verif Require Import Base Fields FieldsFacts Spec LinAlg Columns ColumnsFacts Matrices Reduction ReadOffProofs Rips SpecRips SpecPath RipsCode RipsFacts RipsBasis RipsComplex PropRips RipsCohomology PropRipsCohomology SpecPH Persistence RipsPersistence PropRipsPersistence PropRipsCli PropRipsInput PropGrpphExamples.
From Coq Require Import Ring Field Permutation Sorted Lia Arith.
Set Implicit Arguments.

(** ** Pairs are decided by the basis up to their column *)
Section Prefix.
  Context {K : coeffT} {F C R : ordT} (phi : R -> F) (B B' : list C) (D : C -> vec K R).
  Add Field KFPrefix : (F_field K).
  Hypothesis Hnd : NoDup (B ++ B').
  Let cut (x : vec K C) : vec K C := fun c => if in_dec ord_eq_dec c B then x c else f0.
  Lemma prefix_off b : In b B' -> ~ In b B.
  Proof. intros H H'. clear cut. induction B as [|a l IH]; [destruct H'|]. simpl in Hnd. inversion Hnd as [|? ? N1 N2]; subst. destruct H' as [->|H']; [apply N1, in_app_iff; auto|auto]. Qed.
  Lemma lincomb_prefix x : (forall b, In b B' -> x b = f0) -> forall r, lincomb (B ++ B') x D r = lincomb B x D r.
  Proof.
    intros H r. unfold lincomb. rewrite vsum_app, (vsum_0 B'); [ring|]. intros b Hb. rewrite (H b Hb). ring.
  Qed.
  Lemma lincomb_cut x r : lincomb B (cut x) D r = lincomb B x D r.
  Proof. unfold lincomb. apply vsum_ext. intros b Hb. unfold cut. destruct (in_dec ord_eq_dec b B); [auto|contradiction]. Qed.
  Lemma cut_off (x : vec K C) b : In b B' -> cut x b = f0.
  Proof. intros H. unfold cut. destruct (in_dec ord_eq_dec b B) as [Hb|]; auto. now apply prefix_off in H. Qed.
  Lemma ends_prefix (x : vec K C) j : In j B -> ends_at (B ++ B') x j -> ends_at B x j /\ forall b, In b B' -> x b = f0.
  Proof.
    intros Hj (B1 & B2 & E & Hx & Hz). apply in_split in Hj. destruct Hj as (C1 & C2 & EB).
    assert (Hsp : C1 ++ j :: (C2 ++ B') = B1 ++ j :: B2) by (rewrite <- E, EB, <- app_assoc; reflexivity).
    assert (H12 : C1 = B1 /\ C2 ++ B' = B2).
    { rewrite EB, <- app_assoc in Hnd. simpl in Hnd. rewrite Hsp in Hnd. clear - Hsp Hnd. revert C1 Hsp. induction B1 as [|a l IH]; intros [|c C1] Hsp; simpl in *.
      - injection Hsp. auto.
      - injection Hsp as -> <-. inversion Hnd as [|? ? N1 N2]; subst. exfalso. apply N1. apply in_app_iff. right. now left.
      - injection Hsp as <- Hsp. inversion Hnd as [|? ? N1 N2]; subst. exfalso. apply N1. apply in_app_iff. right. now left.
      - injection Hsp as -> Hsp. inversion Hnd as [|? ? N1 N2]; subst. destruct (IH N2 _ Hsp) as [-> ->]. auto. }
    destruct H12 as [<- <-]. split; [exists C1, C2; split; auto; split; auto|]; intros b Hb; apply Hz, in_app_iff; auto.
  Qed.
  Lemma ends_extend (x : vec K C) j : ends_at B x j -> ends_at (B ++ B') (cut x) j.
  Proof.
    intros (B1 & B2 & E & Hx & Hz). exists B1, (B2 ++ B'). split; [rewrite E, <- app_assoc; reflexivity|]. split.
    - unfold cut. destruct (in_dec ord_eq_dec j B) as [|Hn]; auto. exfalso. apply Hn. rewrite E. apply in_app_iff. right. now left.
    - intros b Hb. apply in_app_iff in Hb. destruct Hb as [Hb|Hb]; [|now apply cut_off]. unfold cut. destruct (in_dec ord_eq_dec b B); auto.
  Qed.
  Lemma lead_same (v w : vec K R) i : (forall r, v r = w r) -> leading phi v i -> leading phi w i.
  Proof. intros H [H1 H2]. split; [now rewrite <- H|]. intros r Hr. rewrite <- H. auto. Qed.
  Lemma is_pair_prefix i j : In j B -> (is_pair phi (B ++ B') D i j <-> is_pair phi B D i j).
  Proof.
    intros Hj.
    assert (Hc : forall x r, lincomb (B ++ B') (cut x) D r = lincomb B x D r) by (intros x r; rewrite lincomb_prefix by apply cut_off; apply lincomb_cut).
    split; intros (H1 & (x & Hx & Hl) & H3).
    - split; [|split].
      + intros y Hy Hz. apply (H1 _ (ends_extend Hy)). intros r. rewrite Hc. apply Hz.
      + destruct (ends_prefix Hj Hx) as [Hx' H0]. exists x. split; auto. eapply lead_same; [|exact Hl]. intros r. now apply lincomb_prefix.
      + intros y i' Hy Hl'. apply (H3 _ i' (ends_extend Hy)). eapply lead_same; [|exact Hl']. intros r. now rewrite Hc.
    - split; [|split].
      + intros y Hy Hz. destruct (ends_prefix Hj Hy) as [Hy' H0]. apply (H1 _ Hy'). intros r. rewrite <- (lincomb_prefix _ H0). apply Hz.
      + exists (cut x). split; [now apply ends_extend|]. eapply lead_same; [|exact Hl]. intros r. now rewrite Hc.
      + intros y i' Hy Hl'. destruct (ends_prefix Hj Hy) as [Hy' H0]. apply (H3 _ i' Hy'). eapply lead_same; [|exact Hl']. intros r. now apply lincomb_prefix.
  Qed.
End Prefix.

Lemma before_app_inv {C} (A B : list C) x y : before (A ++ B) x y -> before A x y \/ before B x y \/ (In x A /\ In y B).
Proof.
  intros H. apply before_split in H. destruct H as (A1 & B1 & E & Hy).
  revert A1 E. induction A as [|a A IH]; intros A1 E.
  - right. left. apply before_split. eauto.
  - destruct A1 as [|a1 A1]; simpl in E; injection E as <- E.
    + subst B1. apply in_app_iff in Hy. destruct Hy as [Hy|Hy]; [|right; right; split; [now left|auto]]. left. apply before_split. exists [], A. auto.
    + destruct (IH _ E) as [H|[H|[H1 H2]]]; auto.
      * left. apply before_split in H. destruct H as (A2 & B2 & -> & H). apply before_split. exists (a :: A2), B2. auto.
      * right. right. split; [now right|auto].
Qed.

(** ** An order of the larger complex in which the smaller one comes last *)
Lemma extended_order (F : ordT) (z : F) (d : list (list F)) (phi : N_ord -> F) m m' : rips_matrix z d -> 1 <= m -> m <= m' -> rips_filtration z d phi ->
  exists hi, rips_order d phi (m' + 1) (hi ++ all_cells z d m).
Proof.
  intros Hd Hm Hle Hphi. destruct (@all_cells_order F z d m Hd Hm phi Hphi) as (A1 & A2 & A3). assert (Hm' : 1 <= m') by lia.
  destruct (@all_cells_order F z d m' Hd Hm' phi Hphi) as (B1 & B2 & B3).
  exists (filter (fun c => if in_dec N.eq_dec c (all_cells z d m) then false else true) (all_cells z d m')). split; [|split].
  - apply nodup_app_intro; auto; [now apply NoDup_filter|]. intros x Hx Hx'. apply filter_In in Hx. destruct Hx as [_ Hx]. destruct (in_dec N.eq_dec x (all_cells z d m)); [discriminate|contradiction].
  - intros c. rewrite in_app_iff, filter_In, A2, B2. split.
    + intros [[H _]|(s & H1 & H2 & H3)]; auto. exists s. split; auto. split; auto. lia.
    + intros H. destruct (in_dec N.eq_dec c (all_cells z d m)) as [Hin|]; [right; now apply A2|left; auto].
  - intros s t Hs Ht Hl Hb. apply before_app_inv in Hb. destruct Hb as [Hb|[Hb|[H1 H2]]].
    + apply B3; auto. now apply before_filter in Hb.
    + apply A3; auto.
    + exfalso. apply filter_In in H1. destruct H1 as [_ H1]. destruct (in_dec N.eq_dec (code (length d) s) (all_cells z d m)) as [|Hn]; [discriminate|]. apply Hn. apply A2 in H2. destruct H2 as (t' & T1 & T2 & T3). apply code_inj in T3; [|apply Ht|apply T1]. subst t'.
      apply A2. exists s. split; auto. split; [lia|auto].
Qed.

(** ** C105: a larger maximal dimension changes nothing below *)
Theorem C105_max_dim_pairs :
  forall (HI HI' : heaps) (K : coeffT) (F : ordT) (uw uw' : N) (z : F) (d : list (list F)) (m m' : nat),
  rips_matrix z d -> 1 <= m -> m <= m' -> codes_fit uw (length d) (m + 2) -> codes_fit uw' (length d) (m' + 2) ->
  forall (L L' : list N) (fuel fuel' : nat), covers_simplices (length d) (m + 2) L -> covers_simplices (length d) (m' + 2) L' -> length L < fuel -> length L' < fuel' ->
  exists rc dg rc' dg',
    rips_cohomology HI (K:=K) fuel uw z d m = Ok (rc, dg) /\ rips_cohomology HI' (K:=K) fuel' uw' z d m' = Ok (rc', dg') /\
    essential dg = essential dg' /\ NoDup (pairings dg) /\ NoDup (pairings dg') /\
    forall death birth, In (death, birth) (pairings dg) <->
      In (death, birth) (pairings dg') /\ exists s, simplex (length d) s /\ length s <= m + 1 /\ birth = Reverse (code (length d) s).
Proof.
  intros HI HI' K F uw uw' z d m m' Hd Hm Hle Hfit Hfit' L L' fuel fuel' HL HL' Hf Hf'. assert (Hm' : 1 <= m') by lia.
  destruct (@C44_cohomology_intrinsic HI K F uw z d m Hd Hm Hfit L fuel HL Hf) as (rc & dg & E1 & N1 & _ & H1).
  destruct (@C44_diagram_shape HI K F uw z d m Hd Hm Hfit L fuel HL Hf) as (rc0 & dg0 & E0 & _ & _ & _ & S1). rewrite E1 in E0. injection E0 as <- <-.
  destruct (@C44_cohomology_intrinsic HI' K F uw' z d m' Hd Hm' Hfit' L' fuel' HL' Hf') as (rc' & dg' & E2 & N2 & _ & H2).
  destruct (@C44_diagram_shape HI' K F uw' z d m' Hd Hm' Hfit' L' fuel' HL' Hf') as (rc0 & dg0 & E0 & _ & _ & _ & S2). rewrite E2 in E0. injection E0 as <- <-.
  exists rc, dg, rc', dg'. split; auto. split; auto. split; [congruence|]. split; auto. split; auto. intros i j.
  pose proof (some_phi_ok Hd) as Hphi. pose proof (@all_cells_order F z d m Hd Hm _ Hphi) as Ho. destruct (@extended_order F z d _ m m' Hd Hm Hle Hphi) as (hi & Ho').
  destruct (@spec_exists K F z d Hd) as (_ & HB & _ & _). pose proof (Dc_coboundary z d HB) as HD. set (D := Dc z d (spec_boundary z d)) in HD.
  destruct (H1 _ D _ Hphi HD Ho) as [P1 _]. destruct (H2 _ D _ Hphi HD Ho') as [P2 _]. rewrite P1, P2.
  assert (Eb : rev_basis (hi ++ all_cells z d m) = rev_basis (all_cells z d m) ++ rev_basis hi) by (unfold rev_basis; now rewrite rev_app_distr, map_app).
  assert (Hnd : NoDup (rev_basis (all_cells z d m) ++ rev_basis hi)).
  { rewrite <- Eb. unfold rev_basis. apply FinFun.Injective_map_NoDup; [intros a b [=]; auto|]. apply NoDup_rev. apply Ho'. }
  assert (Hin : In j (rev_basis (all_cells z d m)) <-> exists s, simplex (length d) s /\ length s <= m + 1 /\ j = Reverse (code (length d) s)).
  { unfold rev_basis. rewrite in_map_iff. split.
    - intros (c & <- & Hc). apply in_rev, Ho in Hc. destruct Hc as (s & A & B & ->). eauto.
    - intros (s & A & B & ->). exists (code (length d) s). split; auto. apply in_rev. rewrite rev_involutive. apply Ho. eauto. }
  rewrite Eb. split.
  - intros [Hj Hp]. split; [split; [apply in_app_iff; auto|]|now apply Hin]. now apply (@is_pair_prefix K (rev_ord F) (rev_ord rips_index) (rev_ord rips_index)).
  - intros [[_ Hp] Hs]. apply Hin in Hs. split; auto. now apply (@is_pair_prefix K (rev_ord F) (rev_ord rips_index) (rev_ord rips_index)) in Hp.
Qed.
Print Assumptions C105_max_dim_pairs.

(** What the program prints: the lines for dimensions up to [m] are the same, and so are the essential classes and the sizes of the bases. *)
Theorem C105_max_dim_program :
  forall (HI HI' : heaps) (F : ordT) (uw uw' : N) (z : F) (sub : F -> F -> F) (eps : F) (d : list (list F)) (m m' : nat),
  rips_matrix z d -> 1 <= m -> m <= m' -> codes_fit uw (length d) (m + 2) -> codes_fit uw' (length d) (m' + 2) ->
  forall (L L' : list N) (fuel fuel' : nat), covers_simplices (length d) (m + 2) L -> covers_simplices (length d) (m' + 2) L' -> length L < fuel -> length L' < fuel' ->
  exists sizes ess sizes' (printed printed' : list (bar_line F)),
    rips_main HI fuel uw z sub eps d m = Ok (sizes, ess, printed) /\
    rips_main HI' fuel' uw' z sub eps d m' = Ok (sizes', ess, printed') /\
    sizes = firstn (m + 1) sizes' /\
    Permutation printed (filter (fun line => fst (fst line) <=? m) printed').
Proof.
  intros HI HI' F uw uw' z sub eps d m m' Hd Hm Hle Hfit Hfit' L L' fuel fuel' HL HL' Hf Hf'. assert (Hm' : 1 <= m') by lia.
  pose proof (some_phi_ok Hd) as Hphi.
  destruct (@rips_main_lines HI F uw z sub eps d m Hd Hm Hfit L fuel HL Hf _ Hphi) as (rc & dg & E1 & M1).
  destruct (@rips_main_lines HI' F uw' z sub eps d m' Hd Hm' Hfit' L' fuel' HL' Hf' _ Hphi) as (rc' & dg' & E2 & M2).
  destruct (@C105_max_dim_pairs HI HI' Z2_coeff F uw uw' z d m m' Hd Hm Hle Hfit Hfit' L L' fuel fuel' HL HL' Hf Hf') as (rc1 & dg1 & rc2 & dg2 & E1' & E2' & _ & N1 & N2 & HP).
  rewrite E1 in E1'. rewrite E2 in E2'. injection E1' as <- <-. injection E2' as <- <-.
  destruct (@C44_diagram_shape HI' Z2_coeff F uw' z d m' Hd Hm' Hfit' L' fuel' HL' Hf') as (rc0 & dg0 & E0 & S0 & _). rewrite E2 in E0. injection E0 as <- <-.
  do 5 eexists. split; [exact M1|]. split; [exact M2|]. split.
  - rewrite firstn_map. f_equal. replace (m' + 1) with ((m + 1) + (m' - m)) by lia. rewrite (seq_app (m + 1) (m' - m) 0), firstn_app, seq_length, Nat.sub_diag. cbn [firstn]. rewrite app_nil_r. symmetry. apply firstn_all2. now rewrite seq_length.
  - assert (Hff : forall (f g : bar_line F -> bool) B, filter f (filter g B) = filter g (filter f B)).
    { intros f g B. induction B as [|a B IH]; auto. cbn [filter]. destruct (f a) eqn:A1, (g a) eqn:A2; cbn [filter]; rewrite ?A1, ?A2, IH; auto. }
    rewrite Hff. apply permutation_filter.
    assert (Hfm : forall (f : bar_line F -> bool) (g : rev_ord rips_index * rev_ord rips_index -> bar_line F) B, filter f (map g B) = map g (filter (fun p => f (g p)) B)).
    { intros f g B. induction B as [|a B IH]; auto. cbn [filter map]. destruct (f (g a)); cbn [map]; now rewrite IH. }
    rewrite Hfm. apply Permutation_map. apply NoDup_Permutation; [auto|now apply NoDup_filter|]. intros [i j]. rewrite HP, filter_In. unfold line_of. cbn [fst snd].
    split; intros [A B]; (split; [exact A|]); destruct (S0 i j A) as (s & t & _ & _ & X1 & X2 & X3 & X4 & -> & -> & _); cbn [unrev] in *.
    + destruct B as (s' & Y1 & Y2 & [= Y3]). apply Nat.leb_le. unfold dim_of. rewrite Y3, to_vec_code by apply Y1. lia.
    + exists s. split; auto. split; auto. apply Nat.leb_le in B. unfold dim_of in B. rewrite to_vec_code in B by apply X1. lia.
Qed.
Print Assumptions C105_max_dim_program.

(** The corners of an octahedron: the sphere shows only when the maximal dimension is 2; the other lines are the same. *)
Definition octahedron : list (list nat_ord) := [[0;5;3;3;3;3];[5;0;3;3;3;3];[3;3;0;5;3;3];[3;3;5;0;3;3];[3;3;3;3;0;5];[3;3;3;3;5;0]].
Example C105_ex :
  let low := [(0, (2%N, 23%N), (0, 3)); (0, (3%N, 22%N), (0, 3)); (0, (4%N, 29%N), (0, 3)); (0, (5%N, 36%N), (0, 3)); (0, (6%N, 43%N), (0, 3))] : list (bar_line nat_ord) in
  distance_matrix (0 : nat_ord) octahedron /\ codes_fit (2 ^ 64) (length octahedron) 4 /\
  rips_main list_heaps 3000 (2 ^ 64) (0 : nat_ord) Nat.sub (0 : nat_ord) octahedron 1 = Ok ([6; 15], [(0, 1%N, 0)], low) /\
  rips_main list_heaps 3000 (2 ^ 64) (0 : nat_ord) Nat.sub (0 : nat_ord) octahedron 2 = Ok ([6; 15; 20], [(0, 1%N, 0)], (2, (324%N, 2269%N), (3, 5)) :: low).
Proof.
  cbv zeta. split; [|split; [|split; vm_compute; reflexivity]].
  - split; [intros row Hr; repeat (destruct Hr as [<-|Hr]; [reflexivity|]); destruct Hr|].
    assert (B : forall P : nat -> Prop, P 0 -> P 1 -> P 2 -> P 3 -> P 4 -> P 5 -> forall i, i < length octahedron -> P i).
    { intros P H0 H1 H2 H3 H4 H5 i Hi. change (length octahedron) with 6 in Hi. do 6 (destruct i as [|i]; [assumption|]). lia. }
    split; [|split].
    + intros i j Hi Hj. revert i Hi j Hj. refine (B _ _ _ _ _ _ _); refine (B _ _ _ _ _ _ _); reflexivity.
    + refine (B _ _ _ _ _ _ _); reflexivity.
    + intros i j Hi Hj. apply ole_nat. apply Nat.le_0_l.
  - intros s (Hne & Hs & Hb) Hl. pose proof (code_bound Hb) as H. change (length octahedron) with 6 in *.
    assert ((N.of_nat 6 + 1) ^ N.of_nat (length s) <= (N.of_nat 6 + 1) ^ 4)%N by (apply N.pow_le_mono_r; [discriminate|lia]).
    assert ((N.of_nat 6 + 1) ^ 4 < 2 ^ 64)%N by reflexivity. lia.
Qed.
