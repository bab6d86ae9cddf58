(** Columns of the path-homology coboundary: what they list, with which coefficients and times. *)
From Verif Require Import Base Fields FieldsFacts Spec LinAlg Columns Matrices SpecMat Reduction Rips GrpphCells Grpph SpecGrpph GrpphFacts RipsBasis.
From Coq Require Import Ring_theory Lia.
Set Implicit Arguments.

Section Columns.
  Context {K : coeffT}.
  Add Field KGC : (F_field K).
  Context {F : ordT} (time : nat -> nat -> option F) (n : nat) (z inf : F).
  Hypothesis HG : filtered_digraph time n z inf.
  Variable fil : dfil F.
  Hypothesis Hfil : forall s t, s < n -> t < n -> fil s t = Ok (time s t).
  Notation tp := (path_time time).
  Notation gen := (generator time).
  Notation pb := (bridge_of time n).
  Variable bm : kmap edge_ord nat.
  Hypothesis Hbm : forall s t, @map_get edge_ord nat (s, t) bm = pb s t.

  Lemma pb_iff a b c : pb a c = Some b <-> primary_bridge time a b c.
  Proof. apply (bridge_of_spec HG). Qed.
  Lemma bridge_pb a b c : bridge time a b c -> exists p, pb a c = Some p.
  Proof. intros H. apply (bridge_has_primary HG) in H. destruct H as (p & H). exists p. now apply pb_iff. Qed.

  (** *** pure versions of the model's functions *)
  Definition t2 (a b c : nat) : option (cell2 * F) * bool :=
    match tp a b c with
    | None => (None, false)
    | Some f =>
        if a =? c then (Some (DoubleEdge a b, f), false) else
        match time a c with
        | Some g =>
            if oleb g f then (Some (DirectedTriangle a b c, f), false) else
            match pb a c with
            | Some p => if b =? p then (Some (DirectedTriangle a b c, g), true) else (Some (LongSquare a p b c, f), false)
            | None => (None, false)
            end
        | None =>
            match pb a c with
            | Some p => if b =? p then (None, true) else (Some (LongSquare a p b c, f), false)
            | None => (None, false)
            end
        end
    end.
  Definition late (a c : nat) : F := match time a c with Some g => g | None => inf end.
  Definition sq (a b c : nat) : list (cell2 * F) :=
    flat_map (fun i => match (match tp a i c with Some f => if oleb (late a c) f then None else Some (LongSquare a b i c, f) | None => None end)
                       with Some x => [x] | None => [] end)
      (filter (fun i => negb (i =? c)) (filter (fun i => negb (i =? b)) (filter (fun i => negb (i =? a)) (seq 0 n)))).
  Definition all2 (a b c : nat) : list (K * cell2 * F) :=
    match fst (t2 a b c) with Some (x, f) => [(k_one, x, f)] | None => [] end ++
    map (fun p : cell2 * F => (k_neg k_one, fst p, snd p)) (if snd (t2 a b c) then sq a b c else []).

  Lemma t2_ok a b c : a < n -> b < n -> c < n -> two_path_to_two_cell fil bm a b c = Ok (t2 a b c).
  Proof.
    intros Ha Hb Hc. unfold two_path_to_two_cell, t2. rewrite (@two_path_time_ok F time n fil Hfil) by auto. cbn [bind].
    destruct (tp a b c) as [f|] eqn:Ef; auto. destruct (Nat.eqb_spec a c) as [|Hac]; auto.
    rewrite Hfil by auto. cbn [bind]. rewrite Hbm.
    destruct (time a c) as [g|] eqn:Eg.
    - destruct (oleb_spec g f) as [|Hgf]; auto. destruct (@bridge_pb a b c) as (p & ->).
      + exists f. split; auto. intros g' E. assert (g' = g) as -> by congruence. now apply olt_not_le.
      + cbn [unwrap bind]. destruct (b =? p); auto.
    - destruct (@bridge_pb a b c) as (p & ->).
      + exists f. split; auto. congruence.
      + cbn [unwrap bind]. destruct (b =? p); auto.
  Qed.
  Lemma sq_ok a b c : a < n -> b < n -> c < n -> long_squares inf fil n a b c = Ok (sq a b c).
  Proof.
    intros Ha Hb Hc. unfold long_squares. rewrite Hfil by auto. cbn [bind]. unfold sq. apply filter_mapM_pure.
    intros i Hi. repeat (apply filter_In in Hi; destruct Hi as [Hi _]). apply in_seq in Hi. rewrite (@two_path_time_ok F time n fil Hfil) by lia. reflexivity.
  Qed.
  Lemma all2_ok a b c : a < n -> b < n -> c < n -> two_path_to_all_two_cells inf fil n bm a b c = Ok (all2 a b c).
  Proof.
    intros Ha Hb Hc. unfold two_path_to_all_two_cells. rewrite t2_ok by auto. cbn [bind]. unfold all2.
    destruct (t2 a b c) as [x p]. cbn [fst snd]. destruct p; [rewrite sq_ok by auto|]; cbn [bind]; destruct x as [[x f]|]; reflexivity.
  Qed.

  Lemma late_bridge a i c f : tp a i c = Some f -> (oleb (late a c) f = false <-> bridge time a i c).
  Proof.
    intros Ef. unfold late. split.
    - intros H. exists f. split; auto. intros g Eg. rewrite Eg in H. destruct (oleb_spec g f) as [|Hn]; [discriminate|]. now apply olt_not_le.
    - intros (f' & E & H). assert (f' = f) as -> by congruence. destruct (time a c) as [g|] eqn:Eg.
      + destruct (oleb_spec g f) as [Hle|]; auto. exfalso. specialize (H g eq_refl). eapply olt_not_le; eauto.
      + destruct (oleb_spec inf f) as [Hle|]; auto. exfalso. eapply olt_not_le; [exact (path_inf HG _ _ _ Ef)|exact Hle].
  Qed.
  Lemma sq_in a b c X f : In (X, f) (sq a b c) <-> exists i, X = LongSquare a b i c /\ i <> b /\ bridge time a i c /\ tp a i c = Some f.
  Proof.
    unfold sq. rewrite in_flat_map. split.
    - intros (i & Hi & H). apply filter_In in Hi. destruct Hi as [Hi _]. apply filter_In in Hi. destruct Hi as [Hi Hib]. 
      apply negb_true_iff, Nat.eqb_neq in Hib. destruct (tp a i c) as [f'|] eqn:Ef; [|destruct H].
      destruct (oleb (late a c) f') eqn:El; [destruct H|]. destruct H as [[= <- <-]|[]]. exists i. split; auto. split; auto. split; auto. eapply late_bridge; eauto.
    - intros (i & -> & Hib & Hb & Ef). exists i. split.
      + pose proof (path_lt HG _ _ _ Ef). pose proof (path_neq HG _ _ _ Ef). rewrite !filter_In, in_seq, !negb_true_iff, !Nat.eqb_neq. split; [split; [split|]|]; try lia.
      + rewrite Ef. rewrite (proj2 (late_bridge _ _ _ Ef) Hb). now left.
  Qed.
  Lemma NoDup_seq_filters (p q r : nat -> bool) : NoDup (filter p (filter q (filter r (seq 0 n)))).
  Proof. apply NoDup_filter, NoDup_filter, NoDup_filter, seq_NoDup. Qed.
  Lemma sq_nodup a b c : NoDup (map fst (sq a b c)).
  Proof.
    unfold sq. generalize (@NoDup_seq_filters (fun i => negb (i =? c)) (fun i => negb (i =? b)) (fun i => negb (i =? a))).
    induction (filter _ _) as [|i l IH]; intros Hnd; [constructor|]. inversion Hnd; subst. cbn [flat_map]. rewrite map_app.
    destruct (tp a i c) as [f|]; [|cbn [map app]; auto]. destruct (oleb (late a c) f); cbn [map app fst]; [auto|].
    constructor; auto. intros Hin. apply in_map_iff in Hin. destruct Hin as ([X g] & E & Hin). cbn [fst] in E. subst X.
    apply in_flat_map in Hin. destruct Hin as (j & Hj & Hin). destruct (tp a j c) as [f'|]; [|destruct Hin].
    destruct (oleb (late a c) f'); [destruct Hin|]. destruct Hin as [[= -> _]|[]]. auto.
  Qed.

  (** *** coefficients of paths *)
  Lemma delta_and3 a b c x y w : ((a =? x) && (b =? y) && (c =? w)) = true <-> a = x /\ b = y /\ c = w.
  Proof. rewrite !andb_true_iff, !Nat.eqb_eq. tauto. Qed.
  Lemma delta_Some b (k : K) : delta b = Some k <-> b = true /\ k = k_one.
  Proof. unfold delta. destruct b; cbv [f1 f0]; split; intuition congruence. Qed.
  Lemma square_coef a b b' c x y w (k : K) : b' <> b ->
    path_coef (LongSquare a b b' c) x y w = Some k <->
    (a = x /\ b' = y /\ c = w /\ k = k_one) \/ (a = x /\ b = y /\ c = w /\ k = k_neg k_one).
  Proof.
    intros Hb. cbn [path_coef]. destruct ((a =? x) && (b' =? y) && (c =? w)) eqn:E1, ((a =? x) && (b =? y) && (c =? w)) eqn:E2.
    - apply delta_and3 in E1, E2. lia.
    - apply delta_and3 in E1. unfold delta. replace (fsub f1 f0) with (f1 : option K) by ring. cbv [f1].
      split; [intros [= <-]; left; tauto|]. intros [(_ & _ & _ & ->)|(H1 & H2 & H3 & _)]; auto.
      exfalso. apply Bool.not_true_iff_false in E2. apply E2. apply delta_and3. auto.
    - apply delta_and3 in E2. unfold delta. replace (fsub f0 f1) with (fopp (f1 : option K)) by ring. cbv [f1].
      rewrite <- k_neg_f. split; [intros [= <-]; right; tauto|]. intros [(H1 & H2 & H3 & _)|(_ & _ & _ & ->)]; auto.
      exfalso. apply Bool.not_true_iff_false in E1. apply E1. apply delta_and3. auto.
    - unfold delta. replace (fsub f0 f0) with (f0 : option K) by ring. cbv [f0].
      split; [discriminate|]. intros [(H1 & H2 & H3 & _)|(H1 & H2 & H3 & _)]; exfalso.
      + apply Bool.not_true_iff_false in E1. apply E1. apply delta_and3. auto.
      + apply Bool.not_true_iff_false in E2. apply E2. apply delta_and3. auto.
  Qed.

  Theorem all2_in a b c k X f : In (k, X, f) (all2 a b c) <-> gen X f /\ path_coef X a b c = Some k.
  Proof.
    unfold all2. rewrite in_app_iff, in_map_iff. split.
    - intros [H|([Y g] & [= <- <- <-] & H)].
      + unfold t2 in H. destruct (tp a b c) as [f'|] eqn:Ef; [|destruct H].
        destruct (Nat.eqb_spec a c) as [<-|Hac].
        { cbn [fst] in H. destruct H as [[= <- <- <-]|[]]. split; [constructor; auto|]. cbn [path_coef]. apply delta_Some. split; auto. now apply delta_and3. }
        assert (Htri : path_coef (DirectedTriangle a b c) a b c = Some (k_one : K)).
        { cbn [path_coef]. apply delta_Some. split; auto. now apply delta_and3. }
        assert (Hsq : forall p, pb a c = Some p -> b <> p -> bridge time a b c -> gen (LongSquare a p b c) f' /\ path_coef (LongSquare a p b c) a b c = Some (k_one : K)).
        { intros p Ep Hne Hb. split; [constructor; auto; now apply pb_iff|]. apply square_coef; auto. }
        destruct (time a c) as [g|] eqn:Eg.
        * destruct (oleb_spec g f') as [Hle|Hn].
          { cbn [fst] in H. destruct H as [[= <- <- <-]|[]]. split; auto. eapply gen_triangle; eauto. }
          destruct (pb a c) as [p|] eqn:Ep; [|destruct H]. destruct (Nat.eqb_spec b p) as [<-|Hne]; cbn [fst] in H; destruct H as [[= <- <- <-]|[]].
          -- split; auto. eapply gen_collapse; eauto. now apply pb_iff.
          -- apply Hsq; auto. exists f'. split; auto. intros g' E. assert (g' = g) as -> by congruence. now apply olt_not_le.
        * destruct (pb a c) as [p|] eqn:Ep; [|destruct H]. destruct (Nat.eqb_spec b p) as [<-|Hne]; cbn [fst] in H; [destruct H|]. destruct H as [[= <- <- <-]|[]].
          apply Hsq; auto. exists f'. split; auto. congruence.
      + assert (Hp : a <> c /\ pb a c = Some b /\ In (Y, g) (sq a b c)).
        { unfold t2 in H. destruct (tp a b c) as [f'|] eqn:Ef; [|destruct H]. destruct (Nat.eqb_spec a c) as [|Hac]; [destruct H|].
          destruct (time a c) as [g'|] eqn:Eg.
          - destruct (oleb g' f'); [destruct H|]. destruct (pb a c) as [p|] eqn:Ep; [|destruct H]. destruct (Nat.eqb_spec b p) as [<-|Hne]; cbn [snd] in H; [auto|destruct H].
          - destruct (pb a c) as [p|] eqn:Ep; [|destruct H]. destruct (Nat.eqb_spec b p) as [<-|Hne]; cbn [snd] in H; [auto|destruct H]. }
        destruct Hp as (Hac & Hp & H'). apply sq_in in H'. destruct H' as (i & -> & Hi & Hb & Ef). cbn [fst snd]. split.
        * constructor; auto. now apply pb_iff.
        * apply square_coef; auto.
    - intros [HX Hc]. destruct HX as [a' b' f Ef|a' b' c' f g Hac Ef Eg Hle|a' b' c' g Hac Hp Eg|a' b1 b' c' f Hac Hp Hb Hne Ef].
      + left. cbn [path_coef] in Hc. apply delta_Some in Hc. destruct Hc as [E ->]. apply delta_and3 in E. destruct E as (-> & -> & <-).
        unfold t2. rewrite Ef, Nat.eqb_refl. now left.
      + left. cbn [path_coef] in Hc. apply delta_Some in Hc. destruct Hc as [E ->]. apply delta_and3 in E. destruct E as (-> & -> & ->).
        unfold t2. rewrite Ef, Eg. apply Nat.eqb_neq in Hac. rewrite Hac. destruct (oleb_spec g f); [now left|contradiction].
      + left. cbn [path_coef] in Hc. apply delta_Some in Hc. destruct Hc as [E ->]. apply delta_and3 in E. destruct E as (-> & -> & ->).
        pose proof (proj2 (pb_iff _ _ _) Hp) as Ep. destruct Hp as [(f & Ef & Hf) _].
        unfold t2. rewrite Ef, Eg, Ep, Nat.eqb_refl. apply Nat.eqb_neq in Hac. rewrite Hac.
        destruct (oleb_spec g f) as [Hle|]; [|now left]. exfalso. specialize (Hf g Eg). eapply olt_not_le; eauto.
      + apply square_coef in Hc; auto. pose proof (proj2 (pb_iff _ _ _) Hp) as Ep. destruct Hc as [(<- & <- & <- & ->)|(<- & <- & <- & ->)].
        * left. unfold t2. rewrite Ef, Ep. apply Nat.eqb_neq in Hac. rewrite Hac. apply Nat.eqb_neq in Hne. rewrite Hne.
          destruct (time a' c') as [g|] eqn:Eg; [|now left]. destruct (oleb_spec g f) as [Hle|]; [|now left].
          exfalso. destruct Hb as (f' & E & H). assert (f' = f) as -> by congruence. specialize (H g Eg). eapply olt_not_le; eauto.
        * right. exists (LongSquare a' b1 b' c', f). split; auto.
          assert (Hs : snd (t2 a' b1 c') = true).
          { destruct Hp as [(f' & E' & Hf') _]. unfold t2. rewrite E', Ep, Nat.eqb_refl. apply Nat.eqb_neq in Hac. rewrite Hac.
            destruct (time a' c') as [g|] eqn:Eg; [|reflexivity]. destruct (oleb_spec g f') as [Hle|]; [|reflexivity].
            exfalso. specialize (Hf' g eq_refl). eapply olt_not_le; eauto. }
          rewrite Hs. apply sq_in. exists b'. auto.
  Qed.
  Definition row2 (p : K * cell2 * F) : K * cell_ord := (fst (fst p), TwoCell (snd (fst p)) : cell_ord).
  Lemma all2_nodup a b c : NoDup (map snd (map row2 (all2 a b c))).
  Proof.
    rewrite map_map. replace (map (fun x => snd (row2 x)) (all2 a b c)) with (map TwoCell (map (fun p => snd (fst p)) (all2 a b c))) by (rewrite map_map; reflexivity).
    apply (FinFun.Injective_map_NoDup (f := TwoCell)); [intros u v [=]; auto|].
    unfold all2. rewrite map_app, map_map.
    assert (Hs : NoDup (map fst (if snd (t2 a b c) then sq a b c else []))) by (destruct (snd (t2 a b c)); [apply sq_nodup|constructor]).
    change (fun x : cell2 * F => snd (fst (k_neg k_one, fst x, snd x))) with (fun x : cell2 * F => fst x).
    destruct (fst (t2 a b c)) as [[X f]|] eqn:E1; cbn [map app fst snd]; auto.
    constructor; auto. intros Hin. apply in_map_iff in Hin. destruct Hin as ([Y g] & E & Hin). cbn [fst] in E. subst Y.
    destruct (snd (t2 a b c)) eqn:E2; [|destruct Hin]. apply sq_in in Hin. destruct Hin as (i & -> & Hi & _ & _).
    unfold t2 in E1, E2. destruct (tp a b c) as [f'|]; [|discriminate]. destruct (a =? c); [discriminate|].
    destruct (time a c) as [g'|].
    - destruct (oleb g' f'); [discriminate|]. destruct (pb a c) as [p|]; [|discriminate]. destruct (b =? p); discriminate.
    - destruct (pb a c) as [p|]; [|discriminate]. destruct (b =? p); discriminate.
  Qed.
  Lemma all2_coef a b c X f : gen X f -> coef (map row2 (all2 a b c)) (TwoCell X : cell_ord) = path_coef X a b c.
  Proof.
    intros HX. destruct (path_coef X a b c) as [k|] eqn:E.
    - apply coef_nodup; [apply all2_nodup|]. apply in_map_iff. exists (k, X, f). split; auto. apply all2_in. auto.
    - apply coef_notin. intros k Hin. apply in_map_iff in Hin. destruct Hin as ([[k' Y] g] & [= -> <-] & Hin). apply all2_in in Hin. destruct Hin. congruence.
  Qed.

  Lemma gen_triangle_inv a b c f : gen (DirectedTriangle a b c) f -> a <> c /\
    ((exists g, tp a b c = Some f /\ time a c = Some g /\ ole g f) \/ (primary_bridge time a b c /\ time a c = Some f)).
  Proof. intros H. inversion H; subst; split; eauto 6. Qed.
  Lemma gen_square_inv a b c d f : gen (LongSquare a b c d) f ->
    a <> d /\ primary_bridge time a b d /\ bridge time a c d /\ c <> b /\ tp a c d = Some f.
  Proof. intros H. inversion H; subst; auto. Qed.

  (** *** triangles with a given base *)
  Definition base (s t : nat) : list (K * cell2 * F) :=
    match time s t with
    | None => []
    | Some g =>
        match pb s t with Some p => [(k_neg k_one, DirectedTriangle s p t, g)] | None => [] end ++
        flat_map (fun b => match (match tp s b t with Some f => if oltb f g then None else Some (k_neg k_one, DirectedTriangle s b t, f) | None => None end)
                           with Some x => [x] | None => [] end)
          (filter (fun b => negb (t =? b)) (filter (fun b => negb (s =? b)) (seq 0 n)))
    end.
  Lemma base_ok s t : s < n -> t < n -> exists o, triangle_base_coboundary fil n bm s t = Ok o /\ match o with Some l => l | None => [] end = base s t.
  Proof.
    intros Hs Ht. unfold triangle_base_coboundary, base. rewrite Hfil by auto. cbn [bind]. destruct (time s t) as [g|]; [|eauto].
    rewrite Hbm. erewrite filter_mapM_pure; [cbn [bind]; eexists; split; [reflexivity|reflexivity]|].
    intros b Hb. repeat (apply filter_In in Hb; destruct Hb as [Hb _]). apply in_seq in Hb. rewrite (@two_path_time_ok F time n fil Hfil) by lia. reflexivity.
  Qed.
  Lemma base_in s t k X f : In (k, X, f) (base s t) <-> k = k_neg k_one /\ gen X f /\ exists b, X = DirectedTriangle s b t.
  Proof.
    unfold base. destruct (time s t) as [g|] eqn:Eg.
    - assert (Hst : s <> t) by (intros ->; rewrite (no_loop HG) in Eg; discriminate).
      rewrite in_app_iff, in_flat_map. split.
      + intros [H|(b & Hb & H)].
        * destruct (pb s t) as [p|] eqn:Ep; [|destruct H]. destruct H as [[= <- <- <-]|[]]. split; auto. split; [|eauto]. eapply gen_collapse; eauto. now apply pb_iff.
        * destruct (tp s b t) as [f'|] eqn:Ef; [|destruct H]. destruct (oltb_spec f' g) as [|Hn]; [destruct H|]. destruct H as [[= <- <- <-]|[]].
          split; auto. split; [|eauto]. eapply gen_triangle; eauto. now apply ole_not_lt.
      + intros (-> & HX & b & ->). apply gen_triangle_inv in HX. destruct HX as (_ & [(g0 & Ef & Eg' & Hle)|(Hp & Eg')]).
        * assert (g0 = g) as -> by congruence. right. exists b. split.
          -- pose proof (path_lt HG _ _ _ Ef). pose proof (path_neq HG _ _ _ Ef). rewrite !filter_In, in_seq, !negb_true_iff, !Nat.eqb_neq. lia.
          -- rewrite Ef. destruct (oltb_spec f g) as [Hlt|]; [|now left]. exfalso. eapply olt_not_le; eauto.
        * assert (f = g) as -> by congruence. left. apply pb_iff in Hp. rewrite Hp. now left.
    - split; [intros []|]. intros (_ & HX & b & ->). apply gen_triangle_inv in HX. destruct HX as (_ & [(g & _ & E & _)|(_ & E)]); congruence.
  Qed.
  Lemma base_nodup s t : NoDup (map snd (map row2 (base s t))).
  Proof.
    rewrite map_map. replace (map (fun x => snd (row2 x)) (base s t)) with (map TwoCell (map (fun p => snd (fst p)) (base s t))) by (rewrite map_map; reflexivity).
    apply (FinFun.Injective_map_NoDup (f := TwoCell)); [intros u v [=]; auto|]. unfold base.
    destruct (time s t) as [g|] eqn:Eg; [|constructor]. rewrite map_app.
    assert (H2 : forall l, NoDup l -> NoDup (map (fun p : K * cell2 * F => snd (fst p)) (flat_map (fun b => match (match tp s b t with Some f => if oltb f g then None else Some (k_neg k_one, DirectedTriangle s b t, f) | None => None end)
                           with Some x => [x] | None => [] end) l))).
    { induction l as [|i l IH]; intros Hnd; [constructor|]. inversion Hnd; subst. cbn [flat_map]. rewrite map_app.
      destruct (tp s i t) as [f|]; [|cbn [map app]; auto]. destruct (oltb f g); cbn [map app fst snd]; [auto|].
      constructor; auto. intros Hin. apply in_map_iff in Hin. destruct Hin as ([[k X] h] & E & Hin). cbn [fst snd] in E. subst X.
      apply in_flat_map in Hin. destruct Hin as (j & Hj & Hin). destruct (tp s j t) as [f'|]; [|destruct Hin].
      destruct (oltb f' g); [destruct Hin|]. destruct Hin as [[= _ -> _]|[]]. auto. }
    destruct (pb s t) as [p|] eqn:Ep; cbn [map app fst snd].
    - constructor; [|apply H2; apply NoDup_filter, NoDup_filter, seq_NoDup].
      intros Hin. apply in_map_iff in Hin. destruct Hin as ([[k X] h] & E & Hin). cbn [fst snd] in E. subst X.
      apply in_flat_map in Hin. destruct Hin as (j & Hj & Hin). destruct (tp s j t) as [f'|] eqn:Ef; [|destruct Hin].
      destruct (oltb_spec f' g) as [|Hn]; [destruct Hin|]. destruct Hin as [[= _ -> _]|[]].
      apply pb_iff in Ep. destruct Ep as [(f & E & Hf) _]. assert (f' = f) as -> by congruence. apply Hn. auto.
    - apply H2. apply NoDup_filter, NoDup_filter, seq_NoDup.
  Qed.
  Definition has_base (X : cell2) (s t : nat) : bool :=
    match X with DirectedTriangle a _ c => (a =? s) && (c =? t) | _ => false end.
  Lemma base_coef s t X f : gen X f -> coef (map row2 (base s t)) (TwoCell X : cell_ord) = fopp (delta (has_base X s t)).
  Proof.
    intros HX. destruct (has_base X s t) eqn:E.
    - destruct X as [| a b c |]; try discriminate. cbn in E. apply andb_true_iff in E. rewrite !Nat.eqb_eq in E. destruct E as [-> ->].
      unfold delta. cbv [f1]. rewrite <- k_neg_f. apply coef_nodup; [apply base_nodup|]. apply in_map_iff.
      exists (k_neg k_one, DirectedTriangle s b t, f). split; auto. apply base_in. eauto.
    - unfold delta. replace (fopp (f0 : option K)) with (f0 : option K) by ring. apply coef_notin. intros k Hin.
      apply in_map_iff in Hin. destruct Hin as ([[k' Y] g] & [= -> <-] & Hin). apply base_in in Hin. destruct Hin as (_ & _ & b & ->).
      cbn in E. rewrite !Nat.eqb_refl in E. discriminate.
  Qed.

  (** *** the whole column of an edge *)
  Definition edge_col (s t : nat) : list (K * cell2 * F) :=
    flat_map (fun i => all2 i s t) (filter (fun i => negb (i =? s)) (seq 0 n)) ++
    base s t ++
    flat_map (fun i => all2 s t i) (filter (fun i => negb (i =? t)) (seq 0 n)).
  Lemma edge_col_ok s t : s < n -> t < n -> edge_total_coboundary inf fil n bm s t = Ok (edge_col s t).
  Proof.
    intros Hs Ht. unfold edge_total_coboundary, edge_col.
    rewrite (@flat_mapM_pure _ _ _ (fun i => all2 i s t)).
    2:{ intros i Hi. apply filter_In in Hi. destruct Hi as [Hi _]. apply in_seq in Hi. apply all2_ok; lia. }
    cbn [bind]. destruct (base_ok Hs Ht) as (o & E & Eo). rewrite E. cbn [bind]. rewrite Eo.
    rewrite (@flat_mapM_pure _ _ _ (fun i => all2 s t i)).
    2:{ intros i Hi. apply filter_In in Hi. destruct Hi as [Hi _]. apply in_seq in Hi. apply all2_ok; lia. }
    reflexivity.
  Qed.
  Lemma edge_col_gen s t k X f : In (k, X, f) (edge_col s t) -> gen X f.
  Proof.
    unfold edge_col. rewrite !in_app_iff, !in_flat_map. intros [(i & _ & H)|[H|(i & _ & H)]].
    - apply all2_in in H. tauto.
    - apply base_in in H. tauto.
    - apply all2_in in H. tauto.
  Qed.
  Lemma coef_row2_flat {A} (g : A -> list (K * cell2 * F)) l r : coef (map row2 (flat_map g l)) r = vsum l (fun a => coef (map row2 (g a)) r).
  Proof.
    rewrite <- coef_flat_map. f_equal. induction l as [|a l IH]; cbn [flat_map map]; auto. now rewrite map_app, IH.
  Qed.
  (** sums of path coefficients *)
  Lemma vsum_delta (p : nat -> bool) (x : nat) (q : bool) (l : list nat) : NoDup l ->
    (In x l -> vsum (filter p l) (fun i => delta ((x =? i) && q)) = (delta (p x && q) : option K)) /\
    vsum (filter p l) (fun i => delta ((x =? i) && q)) = (if in_dec Nat.eq_dec x l then delta (p x && q) else f0 : option K).
  Proof.
    intros Hl. rewrite vsum_filter. destruct (in_dec Nat.eq_dec x l) as [Hx|Hx].
    - assert (E : vsum l (fun i => if p i then delta ((x =? i) && q) else f0) = (delta (p x && q) : option K)).
      { rewrite (@vsum_single K nat l _ x Hl Hx).
        - rewrite Nat.eqb_refl. destruct (p x); reflexivity.
        - intros b _ Hb. destruct (p b); auto. assert (E : x =? b = false) by (apply Nat.eqb_neq; congruence). rewrite E. reflexivity. }
      auto.
    - split; [tauto|]. apply vsum_0. intros b Hb. destruct (p b); auto. assert (E : x =? b = false) by (apply Nat.eqb_neq; congruence). rewrite E. reflexivity.
  Qed.
  Lemma sum_delta (p : nat -> bool) x q : x < n -> vsum (filter p (seq 0 n)) (fun i => delta ((x =? i) && q)) = (delta (p x && q) : option K).
  Proof. intros Hx. apply vsum_delta; [apply seq_NoDup|]. apply in_seq. lia. Qed.
  Lemma sum_first a b c s t : a < n -> a <> b ->
    vsum (filter (fun i => negb (i =? s)) (seq 0 n)) (fun i => delta ((a =? i) && (b =? s) && (c =? t))) = (delta ((b =? s) && (c =? t)) : option K).
  Proof.
    intros Ha Hab. rewrite (@vsum_ext K nat _ _ (fun i => delta ((a =? i) && ((b =? s) && (c =? t))))) by (intros i _; now rewrite andb_assoc).
    rewrite sum_delta by auto. f_equal. destruct (Nat.eqb_spec b s) as [->|]; cbn [andb]; [|now rewrite andb_false_r].
    assert (E : a =? s = false) by (now apply Nat.eqb_neq). now rewrite E.
  Qed.
  Lemma sum_last a b c s t : c < n -> b <> c ->
    vsum (filter (fun i => negb (i =? t)) (seq 0 n)) (fun i => delta ((a =? s) && (b =? t) && (c =? i))) = (delta ((a =? s) && (b =? t)) : option K).
  Proof.
    intros Ha Hab. rewrite (@vsum_ext K nat _ _ (fun i => delta ((c =? i) && ((a =? s) && (b =? t))))) by (intros i _; now rewrite (andb_comm (c =? i))).
    rewrite sum_delta by auto. f_equal. destruct (Nat.eqb_spec b t) as [->|]; cbn [andb]; [|now rewrite !andb_false_r].
    assert (E : c =? t = false) by (apply Nat.eqb_neq; congruence). now rewrite E.
  Qed.
  Lemma vsum_sub {A} (l : list A) (f g : A -> option K) : vsum l (fun a => fsub (f a) (g a)) = fsub (vsum l f) (vsum l g).
  Proof. induction l as [|a l IH]; simpl; [ring|]. rewrite IH. ring. Qed.

  Lemma gen_ends X f : gen X f -> match X with
    | DoubleEdge a b => a < n /\ b < n /\ a <> b
    | DirectedTriangle a b c => a < n /\ b < n /\ c < n /\ a <> b /\ b <> c /\ a <> c
    | LongSquare a b c d => a < n /\ b < n /\ c < n /\ d < n /\ a <> b /\ a <> c /\ a <> d /\ b <> c /\ b <> d /\ c <> d
    end.
  Proof.
    intros [a b g E|a b c g h Hac E _ _|a b c g Hac [(g' & E & _) _] _|a b b' c g Hac [(g' & E' & _) _] _ Hne E];
      pose proof (path_lt HG _ _ _ E); pose proof (path_neq HG _ _ _ E); try pose proof (path_lt HG _ _ _ E'); try pose proof (path_neq HG _ _ _ E'); intuition congruence.
  Qed.
  Theorem edge_col_coef s t X f : gen X f ->
    coef (map row2 (edge_col s t)) (TwoCell X : cell_ord) = cell_boundary (TwoCell X) (Edge s t).
  Proof.
    intros HX. unfold edge_col. rewrite !map_app, !coef_app, !coef_row2_flat.
    rewrite (@vsum_ext K nat _ _ (fun i => path_coef X i s t)) by (intros i _; eapply all2_coef; eauto).
    rewrite (@vsum_ext K nat (filter (fun i => negb (i =? t)) _) _ (fun i => path_coef X s t i)) by (intros i _; eapply all2_coef; eauto).
    rewrite (@base_coef s t X f HX). pose proof (gen_ends HX) as He.
    destruct X as [a b|a b c|a b c d]; cbn [path_coef has_base cell_boundary].
    - rewrite sum_first, sum_last by intuition. unfold path_boundary. rewrite Nat.eqb_refl. cbn [delta]. ring.
    - rewrite sum_first, sum_last by intuition. unfold path_boundary. destruct (Nat.eqb_spec a c) as [|_]; [exfalso; intuition|]. ring.
    - rewrite !vsum_sub, !sum_first, !sum_last by intuition. unfold path_boundary. destruct (Nat.eqb_spec a d) as [|_]; [exfalso; intuition|]. cbn [delta]. ring.
  Qed.
End Columns.
