(** The standard algorithm: termination, no panics, [R = D V] reduced. *)
From Verif Require Import Base Fields Spec LinAlg Columns ColumnsFacts Matrices SpecMat MatricesFacts Reduction LoopProofs.
From Coq Require Import Ring Field Sorted.
Set Implicit Arguments.

Notation triv := (fun _ => tt : unit_ord).

Lemma row_lt_triv {R : ordT} (r s : R) : row_lt (F:=unit_ord) triv r s <-> olt r s.
Proof.
  unfold row_lt. split; [|now right]. intros [H|[_ H]]; auto. discriminate.
Qed.

Section Rows.
  Context {K : coeffT} {C R : ordT}.
  Lemma row_set_in (m : oracle K C R) l c t k r : In c l -> m c = Ok t -> In (k, r) t -> In r (row_set m l).
  Proof.
    intros H1 H2 H3. unfold row_set. apply nodup_In. apply in_flat_map. exists c. split; auto.
    rewrite H2. now apply (in_map snd) in H3.
  Qed.
  Lemma mden_row_set (m : oracle K C R) l c r : In c l -> mden m c r <> f0 -> In r (row_set m l).
  Proof.
    unfold mden. destruct (m c) as [t| |] eqn:E; try congruence. intros H1 H2.
    apply coef_in in H2. destruct H2 as [k H2]. eapply row_set_in; eauto.
  Qed.
  Lemma lincomb_row_set (m : oracle K C R) l x r : lincomb l x (mden m) r <> f0 -> In r (row_set m l).
  Proof.
    intros H. destruct (in_dec ord_eq_dec r (row_set m l)) as [|Hn]; auto. exfalso. apply H.
    apply lincomb_0. intros b Hb. right. destruct (fscalar_dec (mden m b r)); auto.
    exfalso. apply Hn. eapply mden_row_set; eauto.
  Qed.
  Lemma lincomb_dich {F : ordT} (phi : R -> F) (m : oracle K C R) l x :
    vzero (lincomb l x (mden m)) \/ exists i, leading phi (lincomb l x (mden m)) i.
  Proof. apply (@leading_exists _ _ _ phi (row_set m l)). apply lincomb_row_set. Qed.
End Rows.

Section Std.
  Variable HI : heaps.
  Context {K : coeffT} {C F : ordT}.
  Add Field KFS : (F_field K).
  Variables (phi : C -> F) (D : fmatrix K C C F) (b : basis C) (l : list C).
  Hypothesis Hl : NoDup l.
  Hypothesis Hb : enumerates b l.
  Hypothesis HD : forall c, In c l -> coherent_at phi D c.

  Let Dm := mden (m_col D).
  Definition vd (v : @v_map K C) : C -> vec K C := stored v.
  Definition rd (v : @v_map K C) (j : C) : vec K C := lincomb l (vd v j) Dm.

  (** a stored column of V *)
  Definition vcol_ok (P : list C) (c : C) (lv : list (K * C)) : Prop :=
    coef lv c = f1 /\ NoDup (map snd lv) /\ StronglySorted (fun x y => olt y x) (map snd lv) /\
    exists P1 P2, P = P1 ++ c :: P2 /\ forall k x, In (k, x) lv -> In x (P1 ++ [c]).

  Definition std_inv (P : list C) (st : @v_map K C * @low_map K C) : Prop :=
    let '(v, low) := st in
    (forall c, In c P -> exists lv, map_get c v = Some lv /\ vcol_ok P c lv) /\
    (forall c, ~ In c P -> map_get c v = None) /\
    (forall i j k, map_get i low = Some (j, k) <->
       In j P /\ leading phi (rd v j) i /\ rd v j i = Some k).

  (** every stored column only has terms of the degree of its index, for any grading *)
  Definition homog (v : @v_map K C) : Prop := forall g e, graded g e l Dm ->
    forall c lv, map_get c v = Some lv -> forall k x, In (k, x) lv -> g x = g c.

  Lemma desc_triv_sorted (es : list (entry unit_ord C K)) : desc triv es ->
    StronglySorted (fun x y => olt y x) (map snd (map e_term es)).
  Proof.
    induction es as [|e es IH]; simpl; intros H; constructor.
    - apply IH. tauto.
    - apply Forall_forall. intros x Hx. rewrite map_map in Hx. apply in_map_iff in Hx.
      destruct Hx as (e' & <- & He'). destruct H as [H _]. apply row_lt_triv. apply (H e' He').
  Qed.

  Lemma vcol_ok_snoc P c' c lv : vcol_ok P c lv -> vcol_ok (P ++ [c']) c lv.
  Proof.
    intros (H1 & H2 & H3 & P1 & P2 & -> & H4). repeat split; auto.
    exists P1, (P2 ++ [c']). split; auto. now rewrite <- app_assoc.
  Qed.

  (** the accessors used by the loop on an already reduced column *)
  Lemma fetch_ok v (P : list C) j lv :
    incl P l -> map_get j v = Some lv -> vcol_ok P j lv ->
    (exists es, m_colf (product_f (by_ref D) (mapvec_column v)) j = Ok es /\ wfe phi es /\
       forall r, coef (map e_term es) r = rd v j r) /\
    (exists vs, m_colf (with_trivial_filtration (mapvec_column v)) j = Ok vs /\ wfe triv vs /\
       forall r, coef (map e_term vs) r = vd v j r).
  Proof.
    intros HP Hg (H1 & H2 & H2' & P1 & P2 & -> & H3).
    assert (Ec : mapvec_column v j = Ok lv) by (unfold mapvec_column; now rewrite Hg).
    assert (Hin : forall k x, In (k, x) lv -> In x l).
    { intros k x Hx. apply HP. apply H3 in Hx. apply in_app_iff in Hx. apply in_app_iff. simpl in *. tauto. }
    split.
    - destruct (@product_f_ok K C C C F phi (by_ref D) (mapvec_column v) j lv Ec) as (es & E1 & E2 & E3).
      + intros k x Hx. apply coherent_by_ref. eauto.
      + exists es. split; auto. split; auto. intros r. rewrite E3.
        unfold rd, vd, stored. change (m_col (by_ref D)) with (m_col D). rewrite (@coef_combine K C C lv (mden (m_col D)) l r); eauto.
        apply lincomb_ext; auto. intros x _. now rewrite (mden_ok _ _ _ Ec).
    - exists (tag (F:=unit_ord) triv lv). split; [|split].
      + simpl. apply default_colf_ok; auto.
      + apply tag_wfe.
      + intros r. rewrite tag_terms. unfold vd, stored. now rewrite (mden_ok _ _ _ Ec).
  Qed.

  Lemma vd_support v P j lv x : map_get j v = Some lv -> vcol_ok P j lv -> vd v j x <> f0 ->
    In x P.
  Proof.
    intros Hg (H1 & H2 & H2' & P1 & P2 & -> & H3) Hx. unfold vd, stored, mden, mapvec_column in Hx.
    rewrite Hg in Hx. simpl in Hx. apply coef_in in Hx. destruct Hx as [k Hx]. apply H3 in Hx.
    apply in_app_iff in Hx. apply in_app_iff. simpl in *. tauto.
  Qed.

  Lemma vd_insert_neq v c lv j : c <> j -> forall x, vd (map_insert c lv v) j x = vd v j x.
  Proof.
    intros H x. unfold vd, stored, mden, mapvec_column. now rewrite map_get_insert_neq.
  Qed.
  Lemma vd_insert_eq v c lv x : vd (map_insert c lv v) c x = coef lv x.
  Proof. unfold vd, stored, mden, mapvec_column. now rewrite map_get_insert_eq. Qed.
  Lemma rd_ext v v' j : (forall x, vd v j x = vd v' j x) -> forall r, rd v j r = rd v' j r.
  Proof. intros H r. apply lincomb_ext; auto. Qed.

  Lemma standard_step_spec fuel P c P2 st :
    l = P ++ c :: P2 -> length (row_set (m_col D) l) < fuel -> std_inv P st ->
    exists st', standard_step HI fuel D b st (length P) = Ok st' /\ std_inv (P ++ [c]) st' /\
      (forall j, In j P -> map_get j (fst st') = map_get j (fst st)) /\
      (homog (fst st) -> homog (fst st')).
  Proof.
    destruct st as [v low]. intros El Hfuel (I1 & I1' & I2). unfold standard_step.
    assert (Ee : b_elem b (length P) = Ok c).
    { apply Hb. rewrite El. rewrite nth_error_app2, Nat.sub_diag; auto. }
    rewrite Ee. simpl.
    assert (Hcl : In c l) by (rewrite El; apply in_app_iff; simpl; auto).
    assert (HPl : incl P l) by (rewrite El; intros x Hx; apply in_app_iff; auto).
    assert (HcP : ~ In c P).
    { intros Hi. rewrite El in Hl. apply NoDup_remove_2 in Hl. apply Hl, in_app_iff; auto. }
    destruct (build_bhcol_spec HI (HD _ Hcl)) as (r0 & E0 & Wr0 & Dr0). rewrite E0. simpl.
    set (v0 := add_tuple (empty_bhcol HI unit_ord C K) (k_one, c, tt)).
    assert (Wv0 : wfc triv v0) by (apply wfc_add_entry; [apply wfc_empty|reflexivity]).
    assert (Dv0 : forall x, den v0 x = if oeqb c x then f1 else f0).
    { intros x. unfold v0, add_tuple. rewrite den_add_entry, den_empty. simpl.
      change (Some (@k_one K)) with (@f1 K). ring. }
    rewrite standard_loop_gen.
    destruct (@gen_loop_spec HI K C F phi (m_colf (product_f (by_ref D) (mapvec_column v)))
        (m_colf (with_trivial_filtration (mapvec_column v))) low (row_set (m_col D) l) (rd v) (vd v))
      with (fuel := fuel) (r_i := r0) (v_i := v0) (S' := row_set (m_col D) l)
      as (r' & v' & -> & steps & P1 & P2' & P3 & P4 & P5 & P6 & P7); auto.
    - intros i j k Hg. apply I2 in Hg. destruct Hg as (Hj & Hlead & Hk).
      destruct (I1 j Hj) as (lv & Hg & Hv). destruct (@fetch_ok v P j lv HPl Hg Hv) as [F1 F2].
      refine (conj Hlead (conj Hk (conj _ (conj F1 F2)))). intros r. apply lincomb_row_set.
    - intros r Hr. rewrite Dr0 in Hr. eapply mden_row_set; eauto.
    - intros r Hr. exact Hr.
    - cbn [bind].
      assert (Hsteps : forall m j, In (m, j) steps -> In j P).
      { intros m j Hin. destruct (P1 m j Hin) as (i & k & Hg & _). apply I2 in Hg. tauto. }
      (* V column *)
      assert (Hvc : den v' c = f1).
      { rewrite P3, Dv0, oeqb_refl, vsum_0; [ring|]. intros [m j] Hin. simpl.
        apply Hsteps in Hin. destruct (I1 j Hin) as (lv & Hg & Hv).
        destruct (fscalar_dec (vd v j c)) as [->|Hn]; [ring|]. exfalso. apply HcP. eapply vd_support; eauto. }
      assert (Hvs : forall x, den v' x <> f0 -> In x (P ++ [c])).
      { intros x Hx. apply in_app_iff. destruct (in_dec ord_eq_dec x P) as [|Hn]; auto. right. left.
        destruct (ord_eq_dec c x) as [|Hcx]; auto. exfalso. apply Hx. rewrite P3, Dv0.
        apply oeqb_neq in Hcx. rewrite Hcx, vsum_0; [ring|]. intros [m j] Hin. simpl. apply Hsteps in Hin.
        destruct (I1 j Hin) as (lv & Hg & Hv).
        destruct (fscalar_dec (vd v j x)) as [->|Hn']; [ring|]. exfalso. apply Hn. eapply vd_support; eauto. }
      assert (Hrv : forall r, den r' r = lincomb l (den v') Dm r).
      { intros r. rewrite P2', Dr0.
        transitivity (lincomb l (fun x => fadd (if oeqb c x then f1 else f0)
                        (vsum steps (fun p => fmul (Some (fst p)) (vd v (snd p) x)))) Dm r).
        - rewrite lincomb_add, lincomb_unit by auto. f_equal.
          unfold rd. symmetry. unfold lincomb.
          transitivity (vsum l (fun x => vsum steps (fun p => fmul (fmul (Some (fst p)) (vd v (snd p) x)) (Dm x r)))).
          + apply vsum_ext. intros x _. destruct (F_ring K). rewrite Rmul_comm, <- vsum_mul_l.
            apply vsum_ext. intros p _. rewrite Rmul_comm. reflexivity.
          + rewrite vsum_swap. apply vsum_ext. intros p _. rewrite <- vsum_mul_l. apply vsum_ext.
            intros x _. destruct (F_ring K). now rewrite Rmul_assoc.
        - apply lincomb_ext; auto. intros x _. now rewrite P3, Dv0. }
      destruct (pop_pivot_spec P4) as (o & r2 & -> & Hpr). cbn [bind].
      destruct (drain_sorted_spec P5) as (es & v2 & -> & _ & We & De & Ce & Ne). cbn [bind].
      set (lv := map e_term es).
      assert (Hlv : vcol_ok (P ++ [c]) c lv).
      { refine (conj _ (conj _ (conj _ _))).
        - unfold lv. now rewrite Ce.
        - unfold lv. rewrite map_map. simpl. exact (desc_nodup _ _ De).
        - apply desc_triv_sorted. exact De.
        - exists P, []. split; auto. intros k x Hin. apply Hvs. apply in_map_iff in Hin.
          destruct Hin as (e & [= <- <-] & He). rewrite (Ne e He). discriminate. }
      set (vn := map_insert c lv v).
      assert (Hvn : forall x, vd vn c x = den v' x).
      { intros x. unfold vn. rewrite vd_insert_eq. unfold lv. auto. }
      assert (Hrn : forall r, rd vn c r = den r' r).
      { intros r. rewrite Hrv. apply lincomb_ext; auto. }
      assert (Hro : forall j, In j P -> forall r, rd vn j r = rd v j r).
      { intros j Hj. apply rd_ext. apply vd_insert_neq. intros ->. auto. }
      eexists. split; [reflexivity|]. split.
      + split; [|split].
        * intros j Hj. apply in_app_iff in Hj. destruct Hj as [Hj|[<-|[]]].
          -- destruct (I1 j Hj) as (lj & Hg & Hv). exists lj. split; [|now apply vcol_ok_snoc].
             unfold vn. rewrite map_get_insert_neq; auto. intros ->; auto.
          -- exists lv. split; auto. unfold vn. apply map_get_insert_eq.
        * intros j Hj. unfold vn. rewrite map_get_insert_neq.
          -- apply I1'. intros Hi. apply Hj, in_app_iff; auto.
          -- intros ->. apply Hj, in_app_iff; simpl; auto.
        * (* low_inverse *)
          assert (Hcase : (o = None /\ vzero (rd vn c)) \/
                   exists p, o = Some p /\ leading phi (rd vn c) (e_row p) /\ rd vn c (e_row p) = Some (e_coeff p) /\
                      map_get (e_row p) low = None).
          { destruct o as [p|].
            - right. exists p. destruct Hpr as [_ (_ & Hc & Hlead & _)].
              split; auto. split; [eapply leading_ext; [|exact Hlead]; auto|]. split; [now rewrite Hrn|].
              destruct P7 as [[Hz _]|(p' & _ & _ & Hl' & _ & Hg)].
              + exfalso. eapply leading_not_zero; eauto.
              + now rewrite (leading_unique Hlead Hl').
            - left. destruct Hpr as [_ [Hz _]]. split; auto. intros r. rewrite Hrn. apply Hz. }
          intros i j k. destruct Hcase as [[-> Hz]|(p & -> & Hlead & Hc & Hnone)].
          -- rewrite I2. split.
             ++ intros (Hj & H2 & H3). split; [apply in_app_iff; auto|]. split.
                ** eapply leading_ext; [|exact H2]. intros r. symmetry. auto.
                ** now rewrite Hro.
             ++ intros (Hj & H2 & H3). apply in_app_iff in Hj. destruct Hj as [Hj|[<-|[]]].
                ** split; auto. split; [eapply leading_ext; [|exact H2]; auto|]. now rewrite <- Hro.
                ** exfalso. eapply leading_not_zero; eauto.
          -- rewrite map_get_insert. destruct (oeqb_spec (e_row p) i) as [<-|Hi].
             ++ split.
                ** intros [= <- <-]. split; [apply in_app_iff; simpl; auto|]. auto.
                ** intros (Hj & H2 & H3). apply in_app_iff in Hj. destruct Hj as [Hj|[<-|[]]].
                   --- exfalso. assert (map_get (e_row p) low = Some (j, k)); [|congruence].
                       apply I2. split; auto. split; [eapply leading_ext; [|exact H2]; auto|].
                       now rewrite <- Hro.
                   --- congruence.
             ++ rewrite I2. split.
                ** intros (Hj & H2 & H3). split; [apply in_app_iff; auto|]. split.
                   --- eapply leading_ext; [|exact H2]. intros r. symmetry. auto.
                   --- now rewrite Hro.
                ** intros (Hj & H2 & H3). apply in_app_iff in Hj. destruct Hj as [Hj|[<-|[]]].
                   --- split; auto. split; [eapply leading_ext; [|exact H2]; auto|]. now rewrite <- Hro.
                   --- exfalso. apply Hi. eapply leading_unique; eauto.
      + split; [intros j Hj; cbn [fst]; unfold vn; rewrite map_get_insert_neq; auto; intros ->; auto|].
        cbn [fst]. intros Hh g e Hg c' lv' Hg' k x Hx. unfold vn in Hg'. rewrite map_get_insert in Hg'.
        destruct (oeqb_spec c c') as [<-|Hcc]; [|eapply Hh; eauto]. injection Hg' as <-.
        assert (Hhv : forall j y, In j P -> vd v j y <> f0 -> g y = g j).
        { intros j y Hj Hy. destruct (I1 j Hj) as (lj & Hgj & _). unfold vd, stored, mden, mapvec_column in Hy. rewrite Hgj in Hy. cbn [unwrap] in Hy.
          apply coef_in in Hy. destruct Hy as [ky Hy]. eapply Hh; eauto. }
        assert (Hstg : forall m j, In (m, j) steps -> g j = g c).
        { intros m j Hin. destruct (P1 m j Hin) as (i & k' & Hgi & HG). pose proof Hgi as Hgi'. apply I2 in Hgi'. destruct Hgi' as (Hj & Hlead & _).
          assert (Hrd : forall j' r, In j' P -> rd v j' r <> f0 -> g r = (g j' + e)%Z).
          { intros j' r Hj' Hr. unfold rd, lincomb in Hr.
            destruct (Exists_dec (fun y => vd v j' y <> f0 /\ Dm y r <> f0) l) as [He|He].
            - intros y. destruct (fscalar_dec (vd v j' y)), (fscalar_dec (Dm y r)); tauto.
            - apply Exists_exists in He. destruct He as (y & Hy & H1 & H2). rewrite <- (Hhv j' y Hj' H1). apply Hg; auto.
            - exfalso. apply Hr. apply vsum_0. intros y Hy. destruct (fscalar_dec (vd v j' y)) as [->|H1]; [ring|].
              destruct (fscalar_dec (Dm y r)) as [->|H2]; [ring|]. exfalso. apply He. apply Exists_exists. eauto. }
          assert (Hi : g i = (g c + e)%Z).
          { apply (HG (fun r => g r = (g c + e)%Z)).
            - intros r Hr. rewrite Dr0 in Hr. apply Hg; auto.
            - intros i' j' k'' Hg' Hgi' r Hr. apply I2 in Hg'. destruct Hg' as (Hj' & [Hl' _] & _).
              pose proof (Hrd j' i' Hj' Hl'). pose proof (Hrd j' r Hj' Hr). lia. }
          destruct Hlead as [Hl' _]. pose proof (Hrd j i Hj Hl'). lia. }
        apply in_map_iff in Hx. destruct Hx as (en & [= <- <-] & Hen).
        assert (Hn : den v' (e_row en) <> f0) by (rewrite (Ne en Hen); discriminate).
        rewrite P3, Dv0 in Hn. destruct (oeqb_spec c (e_row en)) as [<-|Hcx]; auto.
        destruct (Exists_dec (fun p => vd v (snd p) (e_row en) <> f0) steps) as [He|He].
        * intros p. destruct (fscalar_dec (vd v (snd p) (e_row en))); tauto.
        * apply Exists_exists in He. destruct He as ([m j] & Hin & Hy). rewrite <- (Hstg m j Hin). apply (Hhv j); auto. eapply Hsteps; eauto.
        * exfalso. apply Hn. rewrite vsum_0; [ring|]. intros p Hp. destruct (fscalar_dec (vd v (snd p) (e_row en))) as [->|H1]; [ring|].
          exfalso. apply He. apply Exists_exists. eauto.
  Qed.

  Lemma standard_fold_spec fuel P2 : forall P st,
    l = P ++ P2 -> length (row_set (m_col D) l) < fuel -> std_inv P st ->
    exists st', foldM (standard_step HI fuel D b) (seq (length P) (length P2)) st = Ok st' /\ std_inv l st' /\
      (homog (fst st) -> homog (fst st')).
  Proof.
    induction P2 as [|c P2 IH]; intros P st El Hf Hinv; simpl.
    - rewrite app_nil_r in El. subst P. eauto.
    - destruct (@standard_step_spec fuel P c P2 st El Hf Hinv) as (st1 & -> & Hinv1 & _ & Hh). cbn [bind].
      destruct (IH (P ++ [c]) st1) as (st' & E & H' & Hh'); auto.
      + now rewrite <- app_assoc.
      + rewrite app_length in E. simpl in E. rewrite Nat.add_comm in E. simpl in E. eauto 10.
  Qed.

  Lemma std_inv_nil : std_inv [] ([], []).
  Proof.
    split; [intros c []|]. split; [reflexivity|]. intros i j k. simpl. split; [discriminate|tauto].
  Qed.

  (** the result of the whole algorithm *)
  Theorem standard_algo_inv fuel : length (row_set (m_col D) l) < fuel ->
    exists v low, standard_algo HI fuel D b = Ok v /\ std_inv l (v, low).
  Proof.
    intros Hf. unfold standard_algo. destruct Hb as [Hs _]. rewrite Hs.
    destruct (@standard_fold_spec fuel l [] ([], []) eq_refl Hf std_inv_nil) as ([v low] & E & Hinv & _).
    simpl in E. rewrite E. simpl. eauto.
  Qed.
  Theorem standard_algo_homog fuel v : length (row_set (m_col D) l) < fuel -> standard_algo HI fuel D b = Ok v -> homog v.
  Proof.
    intros Hf. unfold standard_algo. destruct Hb as [Hs _]. rewrite Hs.
    destruct (@standard_fold_spec fuel l [] ([], []) eq_refl Hf std_inv_nil) as ([v' low] & E & _ & Hh).
    simpl in E. rewrite E. simpl. intros [= <-]. apply Hh. intros g e _ c lv. simpl. discriminate.
  Qed.

  Lemma std_inv_triangular v low : std_inv l (v, low) -> triangular l (stored v).
  Proof.
    intros (I1 & _ & _) j Hj. destruct (I1 j Hj) as (lv & Hg & H1 & H2 & H2' & P1 & P2 & -> & H3).
    assert (Hst : forall x, stored v j x = coef lv x).
    { intros x. unfold stored, mden, mapvec_column. now rewrite Hg. }
    exists P1, P2. split; auto. rewrite Hst. split; [rewrite H1; discriminate|].
    intros x Hx. rewrite Hst. destruct (fscalar_dec (coef lv x)) as [|Hn]; auto. exfalso.
    apply coef_in in Hn. destruct Hn as [k Hk]. apply H3 in Hk.
    apply in_app_iff in Hk. destruct Hk as [Hk|[<-|[]]].
    - clear - Hl Hx Hk. apply in_split in Hx. destruct Hx as (A & B & ->).
      rewrite app_comm_cons, app_assoc in Hl. apply NoDup_remove_2 in Hl. apply Hl.
      rewrite !in_app_iff. auto.
    - apply NoDup_remove_2 in Hl. apply Hl, in_app_iff; auto.
  Qed.

  Lemma std_inv_reduced v low : std_inv l (v, low) -> reduced phi l (rd v).
  Proof.
    intros (_ & _ & I2) j k i Hj Hk H1 H2.
    assert (exists a, rd v j i = Some a) as [a Ha].
    { destruct H1 as [H1 _]. destruct (rd v j i) eqn:E; eauto. now destruct H1. }
    assert (exists a, rd v k i = Some a) as [a' Ha'].
    { destruct H2 as [H2 _]. destruct (rd v k i) eqn:E; eauto. now destruct H2. }
    assert (E1 : map_get i low = Some (j, a)) by (apply I2; auto).
    assert (E2 : map_get i low = Some (k, a')) by (apply I2; auto).
    congruence.
  Qed.

  Lemma rd_dich v : dich phi (rd v) l.
  Proof. intros j Hj. apply lincomb_dich. Qed.
End Std.
