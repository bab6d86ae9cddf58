(** Property theorems C76, C77: on which inputs the Rips program returns, and that the clearing reduction returns on any basis order. *)
From Verif Require Import Base Fields FieldsFacts Spec LinAlg Columns ColumnsFacts Matrices SpecMat MatricesFacts Reduction StandardProofs Graded ClearingProofs ClearingTotal PropClearing Duality Rips RipsInput SpecRips SpecInput RipsCode RipsFacts RipsBasis PropRips RipsComplex RipsCohomology PropRipsCohomology PropRipsCli PropRipsInput PropGrpphExamples.
From Coq Require Import Permutation Sorted Lia Arith List.
Set Implicit Arguments.

(** ** C77: the clearing reduction without any order *)
Theorem C77_clearing_any_order :
  forall (HI : heaps) (K : coeffT) (C F : ordT) (phi : C -> F) (D : fmatrix K C C F) (sb : split_basis C) (dims : list nat) (blocks : list (list C)),
  block_shape phi D sb dims blocks ->
  forall fuel, length (row_set (m_col D) (concat blocks)) < fuel ->
  exists rc dg, build_with_diagram HI fuel D sb dims = Ok (rc, dg) /\
    NoDup (essential dg ++ map fst (pairings dg) ++ map snd (pairings dg)) /\
    (forall c, In c (concat blocks) -> In c (essential dg ++ map fst (pairings dg) ++ map snd (pairings dg))) /\
    (forall c, In c (essential dg) -> In c (concat blocks) /\ vzero (lincomb (concat blocks) (mden (crm_column (m_col D) rc) c) (mden (m_col D)))) /\
    (forall i j, In (i, j) (pairings dg) -> In j (concat blocks) /\
       leading phi (lincomb (concat blocks) (mden (crm_column (m_col D) rc) j) (mden (m_col D))) i).
Proof. intros HI K C F phi D sb dims blocks HB fuel Hf. exact (build_total HI HB Hf). Qed.
Print Assumptions C77_clearing_any_order.

(** ** The Rips matrix of any table with enough columns *)
Section Wide.
  Context {K : coeffT} {F : ordT} (uw : N) (z : F) (d : list (list F)) (m : nat).
  Notation n := (length d).
  Hypothesis Hw : wide d.
  Hypothesis Hm : 1 <= m.
  Hypothesis Hfit : codes_fit uw n (m + 2).
  Lemma wide_built : build_rips_coboundary_matrix (K:=K) uw z d m =
    Ok (fst (matrix_with_basis (rips_coboundary uw d) (tb z d m)), rips_split (rbases z d m)).
  Proof.
    unfold build_rips_coboundary_matrix. rewrite build_rips_bases_ok; auto; [|intros s Hs Hl; apply Hfit; auto; lia]. rewrite built_nth. reflexivity.
  Qed.
  Lemma wide_fil b s : simplex n s -> m_fil (RD (K:=K) uw d b) (Reverse (code n s)) = Ok (rphi (any_phi z d) (Reverse (code n s))).
  Proof.
    intros Hs. cbn [RD by_ref fm_default m_fil reverse_f unrev matrix_with_basis fst rips_coboundary].
    destruct (@filtration_value_ok F z d s Hw Hs) as (f & -> & Hf). cbn [bind]. unfold rphi. cbn [unrev]. do 2 f_equal.
    eapply diameter_unique; [exact Hf|now apply any_phi_ok].
  Qed.
  Lemma wide_shape b : block_shape (rphi (any_phi z d)) (RD (K:=K) uw d b) (reverse_split (rips_split (rbases z d m))) (seq 0 (m + 1)) (rblocks z d m).
  Proof.
    split; [|split; [|split]].
    - apply NoDup_concat.
      + intros l Hl. apply in_map_iff in Hl. destruct Hl as (k & <- & Hk). apply in_seq in Hk. apply (rev_basis_nodup (C:=rips_index)). apply cells_nodup; lia.
      + intros A1 l1 A2 l2 A3 [x] E H1 H2. apply (map_seq_split Hm) in E. destruct E as (i & j & Hij & Hj & -> & ->).
        apply (rev_basis_in (C:=rips_index) (cells z d m i)) in H1. apply (rev_basis_in (C:=rips_index) (cells z d m j)) in H2.
        assert (i = j) by (apply (cells_disjoint z d Hm x (i := i) (j := j)); auto; lia). lia.
    - unfold rblocks. assert (H : forall k, In k (seq 0 (m + 1)) -> k <= m) by (intros k Hk; apply in_seq in Hk; lia).
      revert H. generalize (seq 0 (m + 1)). induction l as [|k l IH]; intros H; simpl; constructor; [apply rsub; auto; apply H; simpl; auto|apply IH; intros; apply H; simpl; auto].
    - intros c Hc. apply rblocks_in in Hc; auto. destruct Hc as (s & Hs & Hl & ->). unfold RD.
      eapply (@coherent_default K rN rN (rev_ord F)); [exact (RD_col (K:=K) d Hm Hfit b Hs Hl)|].
      intros k r Hr. destruct (RD_col_in d m k r Hs Hl Hr) as (t & i & Ht & _ & ->). exact (wide_fil b Ht).
    - intros pre blk post E c r Hc Hn.
      assert (Hlow : forall c', In c' (concat pre) -> forall s, simplex n s -> In (Reverse (code n s)) blk -> exists s', simplex n s' /\ length s' < length s /\ c' = Reverse (code n s')).
      { intros c' Hc' s Hs Hsb. apply in_concat in Hc'. destruct Hc' as (bk & Hbk & Hc'). apply in_split in Hbk. destruct Hbk as (p1 & p2 & ->).
        rewrite <- app_assoc in E. cbn [app] in E. apply (map_seq_split Hm) in E. destruct E as (i & j & Hij & Hj & -> & ->).
        apply rblock_in in Hc', Hsb; auto; try lia. destruct Hc' as (s' & Hs' & Hl' & ->). destruct Hsb as (s2 & Hs2 & Hl2 & E2). injection E2 as E2. apply code_inj in E2; [|apply Hs|apply Hs2]. subst s2.
        exists s'. split; auto. split; auto. lia. }
      assert (Hlb : exists k, k <= m /\ blk = rev_basis (cells z d m k)).
      { assert (Hin : In blk (rblocks z d m)) by (rewrite E; apply in_app_iff; simpl; auto). apply in_map_iff in Hin. destruct Hin as (k & <- & Hk). apply in_seq in Hk. exists k. split; auto. lia. }
      destruct Hlb as (k & Hk & ->). pose proof Hc as Hc0. apply rblock_in in Hc; auto. destruct Hc as (s & Hs & Hl & ->).
      apply (RD_den_nz d Hm Hfit) in Hn; auto; [|lia]. destruct Hn as (t & i & Ht & Hf & ->). pose proof (facet_length Hf) as Hlt. split.
      + intros Hin. apply in_app_iff in Hin. destruct Hin as [Hin|Hin].
        * destruct (Hlow _ Hin _ Hs Hc0) as (s' & Hs' & Hls & E'). injection E' as E'. apply code_inj in E'; [|apply Ht|apply Hs']. subst s'. lia.
        * apply rblock_in in Hin; auto. destruct Hin as (s' & Hs' & Hls & E'). injection E' as E'. apply code_inj in E'; [|apply Ht|apply Hs']. subst s'. lia.
      + intros c' Hc'. destruct (fscalar_dec (mden (m_col (RD (K:=K) uw d b)) c' (Reverse (code n t)))) as [|Hn]; auto. exfalso.
        destruct (Hlow _ Hc' _ Hs Hc0) as (s' & Hs' & Hls & ->). apply (RD_den_nz d Hm Hfit) in Hn; auto; [|lia].
        destruct Hn as (t' & i' & Ht' & Hf' & E'). injection E' as E'. apply code_inj in E'; [|apply Ht|apply Ht']. subst t'. pose proof (facet_length Hf'). lia.
  Qed.
  Lemma wide_run HI L fuel : covers_simplices n (m + 2) L -> length L < fuel ->
    exists rc dg, rips_cohomology HI (K:=K) fuel uw z d m = Ok (rc, dg) /\
      (forall c, In c (essential dg) -> exists s, simplex n s /\ length s <= m + 1 /\ c = Reverse (code n s)) /\
      (forall i j, In (i, j) (pairings dg) -> exists s t, simplex n s /\ simplex n t /\ j = Reverse (code n s) /\ i = Reverse (code n t)).
  Proof.
    intros HL Hf. assert (Hrows : length (row_set (m_col (RD (K:=K) uw d (tb z d m))) (concat (rblocks z d m))) < fuel).
    { eapply Nat.le_lt_trans; [|exact Hf]. apply (@RD_rows K F uw d m Hm Hfit _ _ L HL). intros c Hc. apply rblocks_in in Hc; auto. }
    destruct (@C77_clearing_any_order HI K _ _ _ _ _ _ _ (wide_shape (tb z d m)) fuel Hrows) as (rc & dg & E & _ & _ & H1 & H2).
    exists rc, dg. split; [unfold rips_cohomology; rewrite wide_built; exact E|]. split.
    - intros c Hc. apply H1 in Hc. destruct Hc as [Hc _]. apply rblocks_in in Hc; auto.
    - intros i j Hij. apply H2 in Hij. destruct Hij as [Hj [Hn _]]. apply rblocks_in in Hj; auto. destruct Hj as (s & Hs & _ & ->).
      apply lincomb_nonzero in Hn. destruct Hn as (x & Hx & _ & Hn). apply rblocks_in in Hx; auto. destruct Hx as (s' & Hs' & Hl' & ->).
      apply (RD_den_nz d Hm Hfit) in Hn; auto. destruct Hn as (t & i' & Ht & _ & ->). exists s, t. auto.
  Qed.
End Wide.

(** ** A missing entry above the diagonal *)
Section Missing.
  Context {F : ordT} (uw : N) (z : F) (d : list (list F)) (m : nat).
  Notation n := (length d).
  (** a fold all of whose steps either panic or return the same second component *)
  Definition keeps {B : Type} (x : B) {S : Type} (r : res (S * B)) : Prop := r = Panic \/ exists b, r = Ok (b, x).
  Lemma foldM_keeps {S A : Type} (f : S * list nat -> A -> res (S * list nat)) (x : list nat) l b :
    (forall b a, In a l -> keeps x (f (b, x) a)) -> keeps x (foldM f l (b, x)).
  Proof.
    revert b. induction l as [|a l IH]; intros b H; cbn [foldM]; [right; eauto|].
    destruct (H b a (or_introl eq_refl)) as [->|(b' & ->)]; cbn [bind]; [now left|]. apply IH. intros b0 a0 Ha. apply H. now right.
  Qed.
  Lemma foldM_keeps_each {S A : Type} (f : S * list nat -> A -> res (S * list nat)) (x : list nat) l b b' :
    (forall b a, In a l -> keeps x (f (b, x) a)) -> foldM f l (b, x) = Ok b' -> forall a, In a l -> exists b1 b2, f (b1, x) a = Ok b2.
  Proof.
    revert b. induction l as [|a l IH]; intros b H E; cbn [foldM] in E; [intros a []|].
    destruct (H b a (or_introl eq_refl)) as [E1|(b1 & E1)]; rewrite E1 in E; cbn [bind] in E; [discriminate|].
    intros a' [<-|Ha]; [eauto|]. eapply IH; eauto. intros b0 a0 Ha0. apply H. now right.
  Qed.
  Lemma mapM_total {A B} (f : A -> res B) l : (forall a, In a l -> f a <> NoFuel) -> mapM f l <> NoFuel.
  Proof.
    induction l as [|a l IH]; cbn [mapM]; [discriminate|]. intros H. specialize (IH (fun x Hx => H x (or_intror Hx))). specialize (H a (or_introl eq_refl)).
    destruct (f a); cbn [bind]; try congruence. destruct (mapM f l); cbn [bind]; congruence.
  Qed.
  Lemma dist_at_total w v : dist_at d w v <> NoFuel.
  Proof. unfold dist_at, index. destruct (nth_error d w) as [row|]; cbn [bind unwrap]; [|discriminate]. destruct (nth_error row v); cbn [unwrap]; discriminate. Qed.
  Lemma foldM_total {S A} (f : S -> A -> res S) l : (forall s a, f s a <> NoFuel) -> forall s, foldM f l s <> NoFuel.
  Proof. intros H. induction l as [|a l IH]; intros s; cbn [foldM]; [discriminate|]. pose proof (H s a). destruct (f s a); cbn [bind]; auto; congruence. Qed.
  Lemma push_at_total {A} (bases : list (list A)) k x : push_at bases k x <> NoFuel.
  Proof. destruct (Nat.lt_ge_cases k (length bases)) as [H|H]; [rewrite push_at_ok by auto|rewrite push_at_panic by auto]; discriminate. Qed.
  Lemma from_indices_total nn l : from_indices uw nn l <> NoFuel.
  Proof.
    unfold from_indices. assert (Hc : forall x, checked uw x <> NoFuel) by (intros x; unfold checked; destruct (_ <? _)%N; discriminate).
    match goal with |- bind ?a _ <> _ => assert (H : a <> NoFuel) end.
    { apply foldM_total. intros acc p. pose proof (Hc ((N.of_nat nn + 1) ^ N.of_nat (fst p))%N). destruct (checked _ ((N.of_nat nn + 1) ^ N.of_nat (fst p))%N) as [pw| |]; cbn [bind]; try congruence.
      pose proof (Hc (pw * (N.of_nat (snd p) + 1))%N). destruct (checked _ (pw * (N.of_nat (snd p) + 1))%N) as [t| |]; cbn [bind]; (apply Hc || congruence). }
    destruct (foldM _ _ _); cbn [bind]; congruence.
  Qed.
  Lemma cofacets_keeps : forall fuel s last f bases, n - last <= fuel -> 1 <= fuel -> keeps (s ++ [last]) (add_cofacets uw d m fuel (bases, s ++ [last]) f).
  Proof.
    induction fuel as [|fuel IH]; intros s last f bases Hf H1; [lia|]. cbn [add_cofacets].
    rewrite rev_app_distr. cbn [rev app nth_error unwrap bind]. destruct (last =? n - 1); [right; eauto|].
    apply foldM_keeps. intros b v Hv. apply in_seq in Hv.
    destruct (mapM _ (s ++ [last])) as [ds| |] eqn:Em; cbn [bind]; [|now left|exfalso; revert Em; apply mapM_total; intros; apply dist_at_total].
    destruct (iter_max ds) as [g|]; cbn [unwrap bind]; [|now left].
    destruct (from_indices uw n ((s ++ [last]) ++ [v])) as [[idx|]| |] eqn:Ei; cbn [unwrap bind]; [|now left|now left|].
    2:{ exfalso. revert Ei. apply from_indices_total. }
    destruct (push_at b (length (s ++ [last]) - 1 + 1) (omax g f, idx)) as [b1| |] eqn:Ep; cbn [bind]; [|now left|].
    2:{ exfalso. revert Ep. apply push_at_total. }
    destruct (_ <? m).
    - destruct (IH (s ++ [last]) v (omax g f) b1 ltac:(lia) ltac:(lia)) as [->|(b2 & ->)]; cbn [bind]; [now left|right]. rewrite removelast_last. eauto.
    - cbn [bind]. right. rewrite removelast_last. eauto.
  Qed.
  Lemma bases_need w v : w < v -> v < n -> dist_at d w v = Panic -> build_rips_bases uw z d m = Panic.
  Proof.
    intros Hwv Hv Hp. unfold build_rips_bases.
    pose (f := fun (bases : list (list (F * N))) (v : nat) =>
        do oi <- from_indices uw n [v]; do idx <- unwrap oi; do bases <- push_at bases 0 (z, idx);
        do (bases, _) <- add_cofacets uw d m (S n) (bases, [v]) z; Ok bases).
    change (bind (foldM f (seq 0 n) (repeat [] (m + 1))) (fun bases => Ok (map (@sort_unstable (pair_ord F rips_index)) bases)) = Panic).
    assert (Hno : forall b a, f b a <> NoFuel).
    { intros b a. unfold f. pose proof (from_indices_total n [a]). destruct (from_indices uw n [a]) as [[idx|]| |]; cbn [bind unwrap]; try congruence; try discriminate.
      pose proof (push_at_total b 0 (z, idx)). destruct (push_at b 0 (z, idx)) as [b1| |]; cbn [bind]; try congruence.
      destruct (@cofacets_keeps (S n) [] a z b1 ltac:(lia) ltac:(lia)) as [E|(b2 & E)]; cbn [app] in E; rewrite E; cbn [bind]; discriminate. }
    assert (Hw : forall b, f b w = Panic).
    { intros b. unfold f. pose proof (from_indices_total n [w]) as H1. destruct (from_indices uw n [w]) as [[idx|]| |]; cbn [bind unwrap]; auto; [|congruence].
      pose proof (push_at_total b 0 (z, idx)) as H2. destruct (push_at b 0 (z, idx)) as [b1| |]; cbn [bind]; auto; [|congruence].
      assert (E : add_cofacets uw d m (S n) (b1, [w]) z = Panic); [|rewrite E; reflexivity].
      destruct (@cofacets_keeps (S n) [] w z b1 ltac:(lia) ltac:(lia)) as [E|(b2 & E)]; cbn [app] in E; auto. exfalso.
      revert E. generalize (@cofacets_keeps n [w]). cbn [add_cofacets]. cbn [rev app nth_error unwrap bind length Nat.sub Nat.add]. destruct (Nat.eqb_spec w (n - 1)) as [Ew|_]; [lia|].
      intros Hk E. match type of E with foldM ?g ?l0 _ = _ => assert (Hex : exists c1 c2, g (c1, [w]) v = Ok c2); [refine (@foldM_keeps_each _ _ g [w] l0 b1 _ _ E v _)|destruct Hex as (c1 & c2 & Ec)] end.
      - intros b' a Ha. apply in_seq in Ha. cbn [mapM].
        pose proof (dist_at_total w a) as Hd. destruct (dist_at d w a) as [x| |]; cbn [bind]; [|now left|congruence].
        cbn [iter_max fold_left unwrap bind]. pose proof (from_indices_total n ([w] ++ [a])) as H3. destruct (from_indices uw n ([w] ++ [a])) as [[ix|]| |]; cbn [bind unwrap]; [|now left|now left|congruence].
        match goal with |- keeps _ (bind ?p _) => assert (H4 : p <> NoFuel) by apply push_at_total; destruct p as [b3| |]; cbn [bind]; [|now left|congruence] end.
        destruct (_ <? m).
        + destruct (Hk a (omax x z) b3 ltac:(lia) ltac:(lia) : keeps ([w] ++ [a]) (add_cofacets uw d m n (b3, [w] ++ [a]) (omax x z))) as [->|(b4 & ->)]; cbn [bind]; [now left|right]. cbn [app removelast]. eauto.
        + cbn [bind]. right. cbn [removelast]. eauto.
      - apply in_seq. lia.
      - cbn [mapM] in Ec. rewrite Hp in Ec. discriminate. }
    assert (Hin : In w (seq 0 n)) by (apply in_seq; lia). revert Hin. generalize (repeat (@nil (F * N)) (m + 1)). generalize (seq 0 n). clearbody f. clear - Hno Hw.
    induction l as [|a l IH]; intros b Hin; [destruct Hin|]. cbn [foldM]. destruct Hin as [->|Hin]; [now rewrite Hw|].
    pose proof (Hno b a). destruct (f b a) as [b1| |]; cbn [bind]; [apply IH; auto|reflexivity|congruence].
  Qed.
End Missing.

(** ** Reading the input *)
Lemma F2_length {A B} (P : A -> B -> Prop) l r : Forall2 P l r -> length l = length r.
Proof. induction 1; simpl; auto. Qed.
Lemma F2_impl {A B} (P Q : A -> B -> Prop) : (forall a b, P a b -> Q a b) -> forall l r, Forall2 P l r -> Forall2 Q l r.
Proof. intros H l r. induction 1; constructor; auto. Qed.
Section Reading.
  Context {T A X : Type} {F : ordT} (parse_f64 : T -> option X) (not_nan : X -> option F) (parse_usize : A -> option nat).
  Notation read := (read_table parse_f64 not_nan).
  Notation desc := (describes parse_f64 not_nan).
  Definition entry_ok (e : T) (x : F) : Prop := exists y, parse_f64 e = Some y /\ not_nan y = Some x.
  Lemma read_entry_ok e x : read_entry parse_f64 not_nan e = Ok x <-> entry_ok e x.
  Proof.
    unfold read_entry, entry_ok. destruct (parse_f64 e) as [y|]; cbn [unwrap bind].
    - destruct (not_nan y) as [x'|] eqn:E; cbn [unwrap]; split.
      + intros [= ->]. eauto.
      + intros (y' & [= <-] & E'). congruence.
      + discriminate.
      + intros (y' & [= <-] & E'). congruence.
    - split; [discriminate|]. intros (y & [=] & _).
  Qed.
  Lemma read_entry_total e : read_entry parse_f64 not_nan e <> NoFuel.
  Proof. unfold read_entry. destruct (parse_f64 e) as [y|]; cbn [unwrap bind]; [destruct (not_nan y); cbn [unwrap]|]; discriminate. Qed.
  Lemma mapM_F2 {A1 B1} (f : A1 -> res B1) l r : mapM f l = Ok r <-> Forall2 (fun a b => f a = Ok b) l r.
  Proof.
    revert r. induction l as [|a l IH]; intros r; cbn [mapM].
    - split; [intros [= <-]; constructor|intros H; inversion H; reflexivity].
    - destruct (f a) as [b| |] eqn:Ea; cbn [bind].
      + destruct (mapM f l) as [r'| |] eqn:Er; cbn [bind].
        * split; [intros [= <-]; constructor; auto; now apply IH|]. intros H. inversion H as [|? ? ? ? H1 H2]; subst. apply IH in H2. congruence.
        * split; [discriminate|]. intros H. inversion H as [|? ? ? ? H1 H2]; subst. apply IH in H2. discriminate.
        * split; [discriminate|]. intros H. inversion H as [|? ? ? ? H1 H2]; subst. apply IH in H2. discriminate.
      + split; [discriminate|]. intros H. inversion H; congruence.
      + split; [discriminate|]. intros H. inversion H; congruence.
  Qed.
  Lemma read_table_ok recs d : read recs = Ok d <-> desc recs d.
  Proof.
    unfold read_table. set (w := match recs with Some fields :: _ => length fields | _ => 0 end). rewrite mapM_F2. unfold describes.
    assert (Hrow : forall rec row, (bind (unwrap rec) (fun fields => if length fields =? w then mapM (read_entry parse_f64 not_nan) fields else Panic)) = Ok row <->
        length row = w /\ exists fields, rec = Some fields /\ Forall2 entry_ok fields row).
    { intros [fields|] row; cbn [unwrap bind]; [|split; [discriminate|intros (_ & f & [=] & _)]].
      assert (He : Forall2 (fun a b => read_entry parse_f64 not_nan a = Ok b) fields row <-> Forall2 entry_ok fields row).
      { split; intros H; (eapply F2_impl; [|exact H]); intros a b; apply read_entry_ok. }
      destruct (Nat.eqb_spec (length fields) w) as [E|E].
      - rewrite mapM_F2, He. split.
        + intros H. split; [rewrite <- E; symmetry; eapply F2_length; eauto|eauto].
        + intros (_ & f & [= <-] & H). exact H.
      - split; [discriminate|]. intros (El & f & [= <-] & H). apply F2_length in H. lia. }
    split.
    - intros H. split; [eapply F2_impl; [|exact H]; intros a b Hab; apply Hrow in Hab; destruct Hab as (_ & f & -> & Hf); exists f; split; [reflexivity|exact Hf]|].
      assert (Hl : forall r, In r d -> length r = w).
      { clearbody w. induction H as [|a b l r H1 H2 IH]; intros r0 []; [subst; apply Hrow in H1; tauto|auto]. }
      intros r r' Hr Hr'. now rewrite (Hl _ Hr), (Hl _ Hr').
    - intros [H Hl]. assert (Hw : forall r, In r d -> length r = w).
      { intros r Hr. destruct H as [|a b l r' H1 H2]; [destruct Hr|]. destruct H1 as (f & -> & Hf). unfold w. apply F2_length in Hf. rewrite (Hl r b); simpl; auto. }
      clear Hl. clearbody w. induction H as [|a b l r H1 H2 IH]; constructor; [|apply IH; intros; apply Hw; simpl; auto].
      apply Hrow. split; [apply Hw; simpl; auto|]. destruct H1 as (f & -> & Hf). exists f. split; [reflexivity|exact Hf].
  Qed.
  Lemma read_table_total recs : read recs <> NoFuel.
  Proof.
    apply mapM_total. intros [fields|] _; cbn [unwrap bind]; [|discriminate]. destruct (_ =? _); [|discriminate]. apply mapM_total. intros e _. apply read_entry_total.
  Qed.
  Lemma read_max_dim_ok arg m : read_max_dim parse_usize arg = Ok m <-> asks_for parse_usize arg m.
  Proof.
    unfold read_max_dim, asks_for. destruct arg as [a|].
    - destruct (parse_usize a) as [k|] eqn:E; cbn [unwrap]; split.
      + intros [= ->]. right. eauto.
      + intros [[[=] _]|(a' & [= <-] & E')]. congruence.
      + discriminate.
      + intros [[[=] _]|(a' & [= <-] & E')]. congruence.
    - split; [intros [= <-]; auto|]. intros [[_ ->]|(a' & [=] & _)]. reflexivity.
  Qed.
  Lemma read_max_dim_total arg : read_max_dim parse_usize arg <> NoFuel.
  Proof. unfold read_max_dim. destruct arg as [a|]; [destruct (parse_usize a); cbn [unwrap]|]; discriminate. Qed.
End Reading.

(** ** C76: what is read, and when the program returns *)
Theorem C76_reads :
  forall (T A X : Type) (F : ordT) (parse_f64 : T -> option X) (not_nan : X -> option F) (parse_usize : A -> option nat)
    (HI : heaps) (fuel : nat) (uw : N) (z : F) (sub : F -> F -> F) (eps : F) (records : list (option (list T))) (arg : option A),
  (forall d m, describes parse_f64 not_nan records d -> asks_for parse_usize arg m ->
     rips_cli parse_f64 not_nan parse_usize HI fuel uw z sub eps records arg = rips_main HI fuel uw z sub eps d m) /\
  ((~ exists d m, describes parse_f64 not_nan records d /\ asks_for parse_usize arg m) ->
     rips_cli parse_f64 not_nan parse_usize HI fuel uw z sub eps records arg = Panic).
Proof.
  intros. unfold rips_cli. split.
  - intros d m Hd Hm. apply read_table_ok in Hd. apply read_max_dim_ok in Hm. rewrite Hd. cbn [bind]. rewrite Hm. reflexivity.
  - intros H. destruct (read_table parse_f64 not_nan records) as [d| |] eqn:Ed; cbn [bind]; auto; [|now apply read_table_total in Ed].
    destruct (read_max_dim parse_usize arg) as [m| |] eqn:Em; cbn [bind]; auto; [|now apply read_max_dim_total in Em].
    exfalso. apply H. exists d, m. split; [now apply read_table_ok|now apply read_max_dim_ok].
Qed.
Print Assumptions C76_reads.

Lemma mapM_exists {A B} (f : A -> res B) l : (forall a, In a l -> exists b, f a = Ok b) -> exists r, mapM f l = Ok r.
Proof.
  induction l as [|a l IH]; intros H; cbn [mapM]; [eauto|]. destruct (H a (or_introl eq_refl)) as (b & ->). destruct IH as (r & ->); [intros; apply H; now right|]. cbn [bind]. eauto.
Qed.
Lemma flat_mapM_exists {A B} (f : A -> res (list B)) l : (forall a, In a l -> exists b, f a = Ok b) -> exists r, flat_mapM f l = Ok r.
Proof.
  intros H. unfold flat_mapM. destruct (@mapM_exists _ _ f l H) as (r & ->). cbn [bind]. eauto.
Qed.

(** the program returns whenever no row is shorter than the number of rows, whatever the numbers are *)
Theorem C76_returns_on_wide_tables :
  forall (HI : heaps) (F : ordT) (uw : N) (z : F) (sub : F -> F -> F) (eps : F) (d : list (list F)) (max_dim : nat),
  wide d -> 1 <= max_dim -> codes_fit uw (length d) (max_dim + 2) ->
  forall (L : list N) (fuel : nat), covers_simplices (length d) (max_dim + 2) L -> length L < fuel ->
  exists ess bars, rips_main HI fuel uw z sub eps d max_dim =
    Ok (map (fun k => binomial (length d) (k + 1)) (seq 0 (max_dim + 1)), ess, bars).
Proof.
  intros HI F uw z sub eps d m Hw Hm Hfit L fuel HL Hf.
  destruct (@wide_run Z2_coeff F uw z d m Hw Hm Hfit HI L fuel HL Hf) as (rc & dg & E & H1 & H2).
  assert (Hdm : forall s, simplex (length d) s -> exists k, rips_dimension (length d) (code (length d) s) = Ok k).
  { intros s Hs. unfold rips_dimension. rewrite to_vec_code by apply Hs. cbn [bind]. destruct s; [destruct Hs; congruence|]. cbn [length]. eauto. }
  assert (Hfv : forall s, simplex (length d) s -> exists f, rips_filtration_value d (code (length d) s) = Ok f).
  { intros s Hs. destruct (filtration_value_ok z Hw Hs) as (f & Ef & _). eauto. }
  unfold rips_main. unfold rips_cohomology in E. rewrite wide_built in * by auto. cbn [bind] in *.
  rewrite (@mapM_pure _ _ _ (fun k => binomial (length d) (k + 1))).
  2:{ intros k Hk. apply in_seq in Hk. assert (Hk' : k <= m) by lia. destruct (rsub z d Hm Hk') as (sb & Es & Hen). rewrite Es. cbn [bind]. f_equal.
      rewrite (proj1 Hen). unfold rev_basis. rewrite map_length, rev_length. apply cells_count; auto. }
  cbn [bind]. rewrite E. cbn [bind].
  match goal with |- context [mapM ?f (essential dg)] => destruct (@mapM_exists _ _ f (essential dg)) as (ess & Ee) end.
  { intros c Hc. destruct (H1 c Hc) as (s & Hs & _ & ->). cbn [reverse_f m_fil unrev].
    change (m_fil (fst (matrix_with_basis (rips_coboundary (K:=Z2_coeff) uw d) (tb z d m)))) with (rips_filtration_value (F:=F) d).
    destruct (Hfv s Hs) as (f & ->). cbn [bind]. destruct (Hdm s Hs) as (k & ->). cbn [bind]. eauto. }
  rewrite Ee. cbn [bind].
  match goal with |- context [flat_mapM ?f (pairings dg)] => destruct (@flat_mapM_exists _ _ f (pairings dg)) as (bars & Eb) end.
  { intros [i j] Hij. destruct (H2 i j Hij) as (s & t & Hs & Ht & -> & ->). cbn [reverse_f m_fil unrev fst snd].
    change (m_fil (fst (matrix_with_basis (rips_coboundary (K:=Z2_coeff) uw d) (tb z d m)))) with (rips_filtration_value (F:=F) d).
    destruct (Hdm s Hs) as (k & ->). cbn [bind]. destruct (Hfv s Hs) as (f & ->). destruct (Hfv t Ht) as (g & ->). cbn [bind]. eauto. }
  rewrite Eb. cbn [bind]. eauto.
Qed.
Print Assumptions C76_returns_on_wide_tables.

(** a table with an entry missing above the diagonal is rejected *)
Theorem C76_missing_entry_panics :
  forall (HI : heaps) (F : ordT) (fuel : nat) (uw : N) (z : F) (sub : F -> F -> F) (eps : F) (d : list (list F)) (max_dim w v : nat) (row : list F),
  w < v -> v < length d -> nth_error d w = Some row -> length row <= v ->
  rips_main HI fuel uw z sub eps d max_dim = Panic.
Proof.
  intros HI F fuel uw z sub eps d m w v row Hwv Hv Hr Hl. unfold rips_main, build_rips_coboundary_matrix. rewrite (@bases_need F uw z d m w v); auto.
  unfold dist_at, index. rewrite Hr. cbn [unwrap bind]. apply nth_error_None in Hl. rewrite Hl. reflexivity.
Qed.
Print Assumptions C76_missing_entry_panics.

(** with two records or more the program returns exactly when the records describe a table with at least as many columns as rows and the
    dimension asked for is at least 1; otherwise it panics *)
Theorem C76_returns_iff :
  forall (T A X : Type) (F : ordT) (parse_f64 : T -> option X) (not_nan : X -> option F) (parse_usize : A -> option nat)
    (HI : heaps) (fuel : nat) (uw : N) (z : F) (sub : F -> F -> F) (eps : F) (records : list (option (list T))) (arg : option A),
  (0 < uw)%N -> 2 <= length records ->
  (forall m, asks_for parse_usize arg m -> codes_fit uw (length records) (m + 2) /\
     exists L, covers_simplices (length records) (m + 2) L /\ length L < fuel) ->
  let good := exists d m, describes parse_f64 not_nan records d /\ wide d /\ asks_for parse_usize arg m /\ 1 <= m in
  let run := rips_cli parse_f64 not_nan parse_usize HI fuel uw z sub eps records arg in
  (good -> exists out, run = Ok out) /\ (~ good -> run = Panic).
Proof.
  intros T A X F pf nn pu HI fuel uw z sub eps recs arg Hu Hn Hres good run. destruct (@C76_reads T A X F pf nn pu HI fuel uw z sub eps recs arg) as [H1 H2]. fold run in H1, H2.
  assert (Hlen : forall d, describes pf nn recs d -> length d = length recs) by (intros d [H _]; symmetry; eapply F2_length; eauto).
  split.
  - intros (d & m & Hd & Hw & Ha & Hm). rewrite (H1 d m Hd Ha). destruct (Hres m Ha) as (Hfit & L & HL & Hf). rewrite <- (Hlen d Hd) in *.
    destruct (@C76_returns_on_wide_tables HI F uw z sub eps d m Hw Hm Hfit L fuel HL Hf) as (ess & bars & E). eauto.
  - intros Hg. unfold run, rips_cli in *. destruct (read_table pf nn recs) as [d| |] eqn:Ed; cbn [bind]; auto; [|now apply read_table_total in Ed].
    destruct (read_max_dim pu arg) as [m| |] eqn:Em; cbn [bind]; auto; [|now apply read_max_dim_total in Em].
    apply read_table_ok in Ed. apply read_max_dim_ok in Em. pose proof (Hlen d Ed) as Hl.
    assert (Hdec : wide d \/ exists row, nth_error d 0 = Some row /\ length row <= length d - 1).
    { destruct d as [|row d']; [cbn in Hl; lia|]. destruct (Nat.le_gt_cases (length (row :: d')) (length row)) as [H|H].
      - left. intros r Hr. rewrite (proj2 Ed r row); simpl; auto.
      - right. exists row. split; auto. lia. }
    destruct Hdec as [Hw|(row & Er & Hr)].
    + destruct m as [|m]; [apply C64_max_dim_zero_panics; auto; lia|]. exfalso. apply Hg. exists d, (S m). split; auto. split; auto. split; auto. lia.
    + apply (@C76_missing_entry_panics HI F fuel uw z sub eps d m 0 (length d - 1) row); auto; lia.
Qed.
Print Assumptions C76_returns_iff.

(** ** Concrete cases *)
(** Fields: [None] is not a number, [Some None] is NaN, [Some (Some k)] is [k]. *)
Definition texts (t : list (list nat)) : list (option (list (option (option nat)))) := map (fun row => Some (map (fun k => Some (Some k)) row)) t.
Definition ex_run (records : list (option (list (option (option nat))))) (arg : option (option nat)) :=
  rips_cli (T:=option (option nat)) (X:=option nat) (F:=nat_ord) (fun t => t) (fun x => x) (fun a : option nat => a) list_heaps 700 (2 ^ 64) (0 : nat_ord) Nat.sub (1 : nat_ord) records arg.
Example C76_ex : 
  (* no argument: dimension 1 *)
  ex_run (texts line4) None = Ok ([4; 6], [(0, 1%N, 0)], [(0, (3%N, 17%N), (0, 2)); (0, (4%N, 23%N), (0, 4))]) /\
  ex_run (texts line4) (Some (Some 1)) = ex_run (texts line4) None /\
  (* an argument that is not a number; dimension 0 *)
  ex_run (texts line4) (Some None) = Panic /\ ex_run (texts line4) (Some (Some 0)) = Panic /\
  (* a longer row among shorter ones; rows that are too short; a field that is no number; NaN; an unreadable record *)
  ex_run (texts [[0; 1]; [1; 0; 2]]) None = Panic /\ ex_run (texts [[0; 1]; [1; 0]; [2; 2]]) None = Panic /\
  ex_run [Some [Some (Some 0); None]; Some [Some (Some 1); Some (Some 0)]] None = Panic /\
  ex_run [Some [Some (Some 0); Some None]; Some [Some (Some 1); Some (Some 0)]] None = Panic /\
  ex_run [None; Some [Some (Some 1); Some (Some 0)]] None = Panic /\
  (* rows that are too long are accepted, and so is no input at all *)
  ex_run (texts [[0; 5; 9]; [5; 0; 9]]) None = Ok ([2; 1], [(0, 1%N, 0)], [(0, (2%N, 7%N), (0, 5))]) /\ ex_run [] None = Ok ([0; 0], [], []).
Proof. vm_compute. repeat split. Qed.
Example C76_ex_hyps : 
  (0 < 2 ^ 64)%N /\ 2 <= length (texts line4) /\
  describes (F:=nat_ord) (fun t : option (option nat) => t) (fun x => x) (texts line4) line4 /\ wide line4 /\ asks_for (fun a : option nat => a) None 1 /\
  (forall m, asks_for (fun a : option nat => a) None m -> codes_fit (2 ^ 64) (length (texts line4)) (m + 2) /\
     exists L, covers_simplices (length (texts line4)) (m + 2) L /\ length L < 700).
Proof.
  destruct C64_ex_hyps as (H1 & H2 & H3). split; [reflexivity|]. split; [cbn; lia|]. split.
  { split; [repeat constructor; eexists; (split; [reflexivity|]); repeat constructor; eexists; (split; [reflexivity|reflexivity])|].
    intros r r' Hr Hr'. repeat (destruct Hr as [<-|Hr]; [repeat (destruct Hr' as [<-|Hr']; [reflexivity|]); destruct Hr'|]). destruct Hr. }
  split; [apply line4_rips|]. split; [now left|]. intros m [[_ ->]|(a & [=] & _)]. split; [exact H2|]. exists (map N.of_nat (seq 0 125)). split; [exact H3|]. rewrite map_length, seq_length. lia.
Qed.
(** the table of [C74_asymmetric_refuted], whose basis is not in the order of the times: the reduction returns all the same *)
Example C77_ex : block_shape (rphi (any_phi (0 : nat_ord) lower5)) (RD (K:=Z2_coeff) (2 ^ 64) lower5 (tb (0 : nat_ord) lower5 1))
    (reverse_split (rips_split (rbases (0 : nat_ord) lower5 1))) (seq 0 2) (rblocks (0 : nat_ord) lower5 1) /\
  ~ rips_matrix (0 : nat_ord) lower5 /\ exists rc dg, rips_cohomology list_heaps (K:=Z2_coeff) 2000 (2 ^ 64) (0 : nat_ord) lower5 1 = Ok (rc, dg) /\ length (pairings dg) = 10.
Proof.
  split; [|split].
  - apply wide_shape; [intros row Hr; repeat (destruct Hr as [<-|Hr]; [cbn; lia|]); destruct Hr|lia|].
    intros s (Hne & Hs & Hb) Hl. eapply N.lt_trans; [apply code_bound; exact Hb|]. change (length lower5) with 5 in *.
    eapply N.le_lt_trans; [apply N.pow_le_mono_r with (c := 3%N); [discriminate|lia]|]. reflexivity.
  - intros (_ & _ & H). specialize (H 0 1 ltac:(lia) ltac:(cbn; lia)). destruct H as [H|H]; apply ole_nat in H; cbn in H; lia.
  - destruct (rips_cohomology list_heaps (K:=Z2_coeff) 2000 (2 ^ 64) (0 : nat_ord) lower5 1) as [[rc dg]| |] eqn:E; [|vm_compute in E; discriminate|vm_compute in E; discriminate].
    exists rc, dg. split; auto. apply (f_equal (fun r => match r with Ok (_, dg) => length (pairings dg) | _ => 0 end)) in E. rewrite <- E. vm_compute. reflexivity.
Qed.
