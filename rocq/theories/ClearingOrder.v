(** The clearing algorithm with the dimensions visited in any order: it returns, its pairs are the persistence pairs, and which positive
    elements it reports as essential. *)
From Verif Require Import Base Fields Spec LinAlg Columns ColumnsFacts Matrices SpecMat MatricesFacts Reduction LoopProofs StandardProofs ReadOffProofs Graded ClearingProofs.
From Coq Require Import Ring Field Sorted Lia.
Set Implicit Arguments.

Section Ord.
  Variable HI : heaps.
  Context {K : coeffT} {C F : ordT}.
  Add Field KFO : (F_field K).
  Variables (g : C -> Z) (e : Z) (phi : C -> F) (D : fmatrix K C C F) (sb : split_basis C) (dims : list nat) (blocks : list (list C)).
  Hypothesis HB : graded_blocks g e phi D sb dims blocks.
  Let l := concat blocks.
  Let Dm := mden (m_col D).
  Let Hl : NoDup l. Proof. apply HB. Qed.
  Let HD : forall c, In c l -> coherent_at phi D c. Proof. apply HB. Qed.
  Let Hrow : forall blk x y, In blk blocks -> before blk x y -> row_lt phi x y. Proof. apply HB. Qed.
  Let He : e <> 0%Z. Proof. apply HB. Qed.
  Let Hdeg : forall blk x y, In blk blocks -> In x blk -> In y l -> (g y = g x <-> In y blk). Proof. apply HB. Qed.
  Arguments Hdeg [blk x y] _ _ _.
  Let Hterm : forall c t k r, In c l -> m_col D c = Ok t -> In (k, r) t -> g r = (g c + e)%Z /\ ((exists y, In y l /\ g y = g r) -> In r l). Proof. apply HB. Qed.
  Let HDD : forall c, In c l -> vzero (lincomb l (Dm c) Dm). Proof. apply HB. Qed.

  Lemma o_dm c r : In c l -> Dm c r <> f0 -> g r = (g c + e)%Z /\ ((exists y, In y l /\ g y = g r) -> In r l).
  Proof.
    intros Hc Hn. unfold Dm, mden in Hn. destruct (m_col D c) as [t| |] eqn:Et; try congruence. apply coef_in in Hn. destruct Hn as [k Hk]. eauto.
  Qed.
  Lemma o_block_incl blk : In blk blocks -> incl blk l.
  Proof. intros H x Hx. apply in_concat. eauto. Qed.
  Lemma o_block_nodup blk : In blk blocks -> NoDup blk.
  Proof.
    intros H. apply in_split in H. destruct H as (p & q & E). pose proof Hl as H. unfold l in H. rewrite E, concat_app in H. simpl in H.
    apply NoDup_app_r, NoDup_app_l in H. exact H.
  Qed.
  Lemma o_block_eq b1 b2 c : In b1 blocks -> In b2 blocks -> In c b1 -> In c b2 -> b1 = b2.
  Proof.
    pose proof Hl as H. unfold l in H. revert H. clear. induction blocks as [|bk bs IH]; simpl; [tauto|]. intros H Hb1 Hb2 Hc1 Hc2.
    destruct Hb1 as [<-|Hb1], Hb2 as [<-|Hb2]; auto.
    - exfalso. eapply NoDup_app_disj; eauto. apply in_concat. eauto.
    - exfalso. eapply NoDup_app_disj; eauto. apply in_concat. eauto.
    - apply IH; auto. eapply NoDup_app_r; eauto.
  Qed.
  Definition earlier (j c : C) : Prop := exists p1 p2, blocks = p1 ++ p2 /\ In j (concat p1) /\ In c (concat p2).
  Lemma earlier_pre pre blk post j c : blocks = pre ++ blk :: post -> In c (concat pre ++ blk) -> earlier j c -> In j (concat pre).
  Proof.
    intros E Hc (p1 & p2 & E' & Hj & Hc2). destruct (Nat.le_gt_cases (length p1) (length pre)) as [Hle|Hgt].
    - assert (Ep : p1 = firstn (length p1) pre).
      { transitivity (firstn (length p1) blocks); [rewrite E'; now rewrite firstn_app, Nat.sub_diag, firstn_O, app_nil_r, firstn_all|].
        rewrite E, firstn_app. replace (length p1 - length pre) with 0 by lia. now rewrite firstn_O, app_nil_r. }
      rewrite <- (firstn_skipn (length p1) pre), <- Ep, concat_app. apply in_app_iff; auto.
    - exfalso. assert (Ep : pre ++ [blk] = firstn (S (length pre)) p1).
      { transitivity (firstn (S (length pre)) blocks).
        - rewrite E. replace (pre ++ blk :: post) with ((pre ++ [blk]) ++ post) by (now rewrite <- app_assoc). rewrite firstn_app, app_length. simpl length. replace (S (length pre) - (length pre + 1)) with 0 by lia.
          rewrite firstn_O, app_nil_r. rewrite firstn_all2; auto. rewrite app_length. simpl. lia.
        - rewrite E', firstn_app. replace (S (length pre) - length p1) with 0 by lia. now rewrite firstn_O, app_nil_r. }
      assert (Hc1 : In c (concat p1)).
      { rewrite <- (firstn_skipn (S (length pre)) p1), <- Ep, !concat_app. simpl. rewrite app_nil_r. apply in_app_iff. left. exact Hc. }
      pose proof Hl as H. unfold l in H. rewrite E', concat_app in H. eapply NoDup_app_disj; eauto.
  Qed.

  Notation vcol := (vcol D).
  Notation vden := (vden D).
  Definition ord_rden (rc : @rc_map K C) (c : C) : vec K C := lincomb l (vden rc c) Dm.
  Notation rden := ord_rden.
  Lemma o_vden rc c lv x : vcol rc c lv -> vden rc c x = coef lv x.
  Proof. apply vden_vcol. Qed.
  Lemma o_row rc blk c lv r : In blk blocks -> In c blk -> vcol rc c lv -> col_ok blk c lv -> rden rc c r <> f0 ->
    g r = (g c + e)%Z /\ ((exists y, In y l /\ g y = g r) -> In r l).
  Proof.
    intros Hb Hc Hv [Hin _] Hn. apply lincomb_nonzero in Hn. destruct Hn as (x & Hxl & Hx & Hn).
    rewrite (o_vden _ Hv) in Hx. apply coef_in in Hx. destruct Hx as [k Hk]. apply Hin in Hk.
    assert (Eg : g x = g c) by (apply (Hdeg Hb Hc Hxl); auto). rewrite <- Eg. apply o_dm; auto.
  Qed.

  Definition oinv (pre : list (list C)) (P : list C) (bd : @builder K C) : Prop :=
    let done := concat pre ++ P in
    let rc := bd_rc bd in
    (forall bk c, In bk blocks -> In c bk -> In c done -> exists lv, vcol rc c lv /\ col_ok bk c lv) /\
    (forall c j, map_get c rc = Some (Cleared j) <-> In j done /\ leading phi (rden rc j) c) /\
    (forall c j, map_get c rc = Some (Cleared j) -> exists t, map_get j rc = Some (Reduced t)) /\
    (forall c t, map_get c rc = Some (Reduced t) -> In c done /\ coef t c = f0) /\
    (forall c, In c done -> map_get c rc <> None) /\
    (NoDup (pairings (bd_dgm bd)) /\ forall i j, In (i, j) (pairings (bd_dgm bd)) <-> In j done /\ leading phi (rden rc j) i) /\
    (NoDup (essential (bd_dgm bd)) /\ forall c, In c (essential (bd_dgm bd)) <->
       In c done /\ vzero (rden rc c) /\ forall j, earlier j c -> ~ leading phi (rden rc j) c).
  Definition olow (P : list C) (rc : @rc_map K C) (low : @low_map K C) : Prop :=
    forall i j k, map_get i low = Some (j, k) <-> In j P /\ leading phi (rden rc j) i /\ rden rc j i = Some k.

  Lemma o_fetch rc blk j lv : In blk blocks -> vcol rc j lv -> col_ok blk j lv ->
    (exists es, m_colf (product_f (by_ref D) (crm_column (m_col D) rc)) j = Ok es /\ wfe phi es /\
       forall r, coef (map e_term es) r = rden rc j r) /\
    (exists vs, m_colf (with_trivial_filtration (crm_column (m_col D) rc)) j = Ok vs /\ wfe triv vs /\
       forall r, coef (map e_term vs) r = vden rc j r).
  Proof.
    intros E Hv [Hin _]. pose proof (vcol_crm Hv) as Ec.
    assert (Hinl : forall k x, In (k, x) lv -> In x l) by (intros k x Hx; eapply o_block_incl; eauto).
    split.
    - destruct (@product_f_ok K C C C F phi (by_ref D) (crm_column (m_col D) rc) j lv Ec) as (es & E1 & E2 & E3).
      + intros k x Hx. apply coherent_by_ref. eauto.
      + exists es. split; auto. split; auto. intros r. rewrite E3. unfold ord_rden.
        change (m_col (by_ref D)) with (m_col D). rewrite (@coef_combine K C C lv (mden (m_col D)) l r); eauto.
        apply lincomb_ext; auto. intros x _. now rewrite (o_vden _ Hv).
    - exists (tag (F:=unit_ord) triv lv). split; [|split].
      + simpl. apply default_colf_ok; auto.
      + apply tag_wfe.
      + intros r. rewrite tag_terms. now rewrite (o_vden _ Hv).
  Qed.

  (** the boundary of a chain is a cycle *)
  Lemma o_cycle (x : vec K C) r : lincomb l (lincomb l x Dm) Dm r = f0.
  Proof. rewrite <- lincomb_assoc. apply lincomb_0. intros y Hy. right. now apply HDD. Qed.

  (** the cleared case *)
  Lemma o_cleared rc blk next c j t : In blk blocks -> In j blk -> In next blocks -> In c next ->
    map_get c rc = Some (Cleared j) -> map_get j rc = Some (Reduced t) ->
    (forall lv, vcol rc j lv -> col_ok blk j lv) -> leading phi (rden rc j) c ->
    exists lv, vcol rc c lv /\ col_ok next c lv /\ vzero (rden rc c) /\ (forall x, vden rc c x = rden rc j x).
  Proof.
    intros Hb Hjb Hnx Hcn Hc Hj Hok Hlead.
    assert (Hv : vcol rc j (t ++ [(k_one, j)])) by (left; eauto).
    destruct (Hok _ Hv) as [Hin Hea].
    assert (Hbl : incl blk l) by (now apply o_block_incl).
    assert (Hcl : In c l) by (eapply o_block_incl; eauto).
    destruct (@matrix_col_product_ok K C C (m_col D) (t ++ [(k_one, j)])) as (lv & Ep & Hrows & Hcoef).
    { intros k x Hx. destruct (@HD x) as (q & es & H1 & _); [eauto|eauto]. }
    assert (Hvc : vcol rc c lv) by (right; exists j, t; auto).
    assert (Hcr : forall x, coef lv x = rden rc j x).
    { intros x. rewrite Hcoef. unfold ord_rden. rewrite (@coef_combine K C C _ (mden (m_col D)) l x); eauto.
      apply lincomb_ext; auto. intros y _. now rewrite (o_vden _ Hv). }
    assert (Hgc : g c = (g j + e)%Z) by (eapply (@o_row rc blk j _ c); eauto; apply Hlead).
    exists lv. split; auto. split; [|split].
    - split.
      + intros k x Hx. destruct (Hrows k x Hx) as (k' & y & ly & k'' & H1 & H2 & H3).
        assert (Hy : In y blk) by eauto. destruct (@Hterm y ly k'' x) as [T1 T2]; auto.
        assert (Egx : g x = g c) by (rewrite T1, Hgc; f_equal; apply (Hdeg Hb Hjb (Hbl _ Hy)); auto).
        apply (Hdeg Hnx Hcn); auto. apply T2. exists c. split; auto.
      + apply in_split in Hcn. destruct Hcn as (N1 & N2 & EN). exists N1, N2. split; auto. split.
        * rewrite Hcr. apply Hlead.
        * intros x Hx. rewrite Hcr. destruct Hlead as [_ Hlead]. apply Hlead. apply (Hrow (blk := next)); auto.
          apply before_split. exists N1, N2. auto.
    - intros r. unfold ord_rden. transitivity (lincomb l (lincomb l (vden rc j) Dm) Dm r); [|apply o_cycle].
      apply lincomb_ext; auto. intros x _. now rewrite (o_vden _ Hvc), Hcr.
    - intros x. rewrite (o_vden _ Hvc). auto.
  Qed.

  (** a finished block in which [i] is the last element of a cycle: its reduced column is zero *)
  Lemma o_positive rc bk i (x : vec K C) : In bk blocks -> In i bk ->
    (forall c, In c bk -> exists lv, vcol rc c lv /\ col_ok bk c lv) ->
    (forall c k r, In c bk -> In k bk -> leading phi (rden rc c) r -> leading phi (rden rc k) r -> c = k) ->
    ends_at bk x i -> vzero (lincomb bk x Dm) -> vzero (rden rc i).
  Proof.
    intros Hb Hi Hcols Hred Hea Hz. assert (Hn : NoDup bk) by (now apply o_block_nodup).
    assert (Hbl : incl bk l) by (now apply o_block_incl).
    assert (Heq : forall c, In c bk -> forall r, lincomb bk (vden rc c) Dm r = rden rc c r).
    { intros c Hc r. destruct (Hcols c Hc) as (lv & Hv & Hin & _). unfold ord_rden. symmetry. apply lincomb_incl; auto.
      intros y _ Hy. destruct (fscalar_dec (vden rc c y)) as [|Hne]; auto. exfalso. rewrite (o_vden _ Hv) in Hne. apply coef_in in Hne. destruct Hne as [k Hk]. eauto. }
    assert (HT : triangular bk (vden rc)).
    { intros c Hc. destruct (Hcols c Hc) as (lv & Hv & _ & (A & B & E1 & E2 & E3)). exists A, B. split; auto. split; [now rewrite (o_vden _ Hv)|]. intros y Hy. rewrite (o_vden _ Hv). auto. }
    assert (HR : reduced phi bk (fun j => lincomb bk (vden rc j) Dm)).
    { intros c k r Hc Hk H1 H2. apply (Hred c k r); auto; [refine (leading_ext _ _ H1)|refine (leading_ext _ _ H2)]; intros y; first [apply Heq; auto|symmetry; apply Heq; auto]. }
    assert (Hd : dich phi (fun j => lincomb bk (vden rc j) Dm) bk) by (intros j _; apply lincomb_dich).
    assert (Hp : vzero (lincomb bk (vden rc i) Dm)) by (apply (intrinsic_positive Hn HT HR Hd); auto; exists x; auto).
    intros r. rewrite <- Heq; auto.
  Qed.

  Lemma o_step fuel pre blk post P c P2 bd low sub :
    blocks = pre ++ blk :: post -> blk = P ++ c :: P2 -> enumerates sub blk ->
    length (row_set (m_col D) l) < fuel ->
    oinv pre P bd -> olow P (bd_rc bd) low ->
    exists bd' low', clear_step HI fuel D sub (bd, low) (length P) = Ok (bd', low') /\
      oinv pre (P ++ [c]) bd' /\ olow (P ++ [c]) (bd_rc bd') low'.
  Proof.
    intros E Eb Hen Hfuel (G1 & G2 & G3 & G4 & G5 & (G6n & G6) & (G7n & G7)) HL. unfold clear_step.
    set (rc := bd_rc bd) in *. set (done := concat pre ++ P) in *.
    assert (Hblk : In blk blocks) by (rewrite E; apply in_app_iff; simpl; auto).
    assert (Ee : b_elem sub (length P) = Ok c).
    { apply Hen. rewrite Eb, nth_error_app2, Nat.sub_diag; auto. }
    rewrite Ee. cbn [bind].
    assert (Hcb : In c blk) by (rewrite Eb; apply in_app_iff; simpl; auto).
    assert (Hcl : In c l) by (eapply o_block_incl; eauto).
    assert (Hndl : NoDup (done ++ c :: P2 ++ concat post)).
    { pose proof Hl as H. unfold l in H. rewrite E, concat_app in H. simpl in H. unfold done. rewrite Eb in H. rewrite <- !app_assoc in *. exact H. }
    assert (Hcd : ~ In c done) by (intros H; apply NoDup_remove_2 in Hndl; apply Hndl, in_app_iff; auto).
    assert (HPb : incl P blk) by (rewrite Eb; intros x Hx; apply in_app_iff; auto).
    assert (Hdone' : concat pre ++ (P ++ [c]) = done ++ [c]) by (unfold done; now rewrite app_assoc).
    assert (Hdl : incl done l).
    { intros x Hx. unfold l. rewrite E, concat_app. simpl. rewrite Eb, !in_app_iff. unfold done in Hx. rewrite in_app_iff in Hx. tauto. }
    assert (HdoneV : forall j, In j done -> exists bk lv, In bk blocks /\ In j bk /\ vcol rc j lv /\ col_ok bk j lv).
    { intros j Hj. assert (Hjl : In j l) by auto. apply in_concat in Hjl. destruct Hjl as (bk & Hbk & Hjb).
      destruct (G1 bk j Hbk Hjb Hj) as (lv & H1 & H2). eauto 8. }
    assert (Hdrow : forall j r, In j done -> rden rc j r <> f0 -> g r = (g j + e)%Z).
    { intros j r Hj Hn. destruct (HdoneV j Hj) as (bk & lv & Hbk & Hjb & Hv & Hok). eapply o_row; eauto. }
    assert (HPdeg : forall j, In j done -> g j = g c -> In j P).
    { intros j Hj Eg. unfold done in Hj. apply in_app_iff in Hj. destruct Hj as [Hj|]; auto. exfalso.
      apply (Hdeg Hblk Hcb) in Eg; [|apply Hdl; unfold done; apply in_app_iff; auto].
      pose proof Hl as H. unfold l in H. rewrite E, concat_app in H. simpl in H. eapply NoDup_app_disj; [exact H|exact Hj|apply in_app_iff; auto]. }
    assert (Hear : forall j x, In x (done ++ [c]) -> earlier j x -> In j (concat pre)).
    { intros j x Hx. apply (@earlier_pre pre blk post j x E). unfold done in Hx. rewrite !in_app_iff in *. simpl in Hx. destruct Hx as [[Hx|Hx]|[<-|[]]]; auto. }
    assert (Hcear : forall j, In j (concat pre) -> earlier j c).
    { intros j Hj. exists pre, (blk :: post). split; auto. split; auto. simpl. apply in_app_iff; auto. }
    destruct (map_mem c rc) eqn:Em.
    - (* skipped: cleared by an earlier column *)
      exists bd, low. split; [reflexivity|]. fold rc.
      unfold map_mem in Em. destruct (map_get c rc) as [[j|t]|] eqn:Eg; [|exfalso; apply Hcd; apply (G4 _ _ Eg)|discriminate]. clear Em.
      pose proof Eg as Eg'. apply G2 in Eg'. destruct Eg' as [Hj Hlead]. destruct (G3 _ _ Eg) as (t & Et).
      destruct (HdoneV j Hj) as (bk & lvj & Hbk & Hjb & Hvj & Hokj).
      assert (Hgj : g c = (g j + e)%Z) by (apply Hdrow; auto; apply Hlead).
      assert (Hjp : In j (concat pre)).
      { unfold done in Hj. apply in_app_iff in Hj. destruct Hj as [|Hj]; auto. exfalso.
        assert (g j = g c) by (apply (Hdeg Hblk Hcb); auto; apply Hdl; unfold done; apply in_app_iff; auto). lia. }
      destruct (@o_cleared rc bk blk c j t Hbk Hjb Hblk Hcb Eg Et) as (lv & Hv & Hok & Hz & _); auto.
      { intros lv' Hv'. assert (lv' = lvj) by (apply vcol_crm in Hv', Hvj; congruence). now subst. }
      assert (Hnl : forall i, ~ leading phi (rden rc c) i) by (intros i Hi; eapply leading_not_zero; eauto).
      split.
      + unfold oinv. fold rc. rewrite Hdone'. refine (conj _ (conj _ (conj _ (conj _ (conj _ (conj (conj _ _) (conj _ _))))))); auto.
        * intros bk' x Hb' Hx Hd. apply in_app_iff in Hd. destruct Hd as [Hd|[<-|[]]]; auto.
          rewrite (o_block_eq _ _ _ Hb' Hblk Hx Hcb). eauto.
        * intros x j'. rewrite G2, in_app_iff. simpl. split; [tauto|]. intros [[H|[<-|[]]] H']; auto. exfalso. eapply Hnl; eauto.
        * intros x t' H. destruct (G4 _ _ H) as [H1 H2]. split; auto. apply in_app_iff. auto.
        * intros x Hx. apply in_app_iff in Hx. destruct Hx as [Hx|[<-|[]]]; auto. congruence.
        * intros i j'. rewrite G6, in_app_iff. simpl. split; [tauto|]. intros [[H|[<-|[]]] H']; auto. exfalso. eapply Hnl; eauto.
        * intros x. rewrite G7, in_app_iff. simpl. split.
          -- intros (H1 & H2 & H3). split; auto.
          -- intros ([H1|[<-|[]]] & H2 & H3); [split; auto|].
             exfalso. apply (H3 j); auto.
      + intros i j' k. rewrite (HL i j' k), in_app_iff. simpl. split; [tauto|]. intros ([H|[<-|[]]] & H'); auto. exfalso. eapply Hnl, H'.
    - (* reduced *)
      assert (Hcn : map_get c rc = None) by (unfold map_mem in Em; destruct (map_get c rc); [discriminate|auto]).
      destruct (build_bhcol_spec HI (HD _ Hcl)) as (r0 & E0 & Wr0 & Dr0). rewrite E0. cbn [bind].
      rewrite reduce_column_gen.
      assert (HPV : forall j, In j P -> exists lv, vcol rc j lv /\ col_ok blk j lv).
      { intros j Hj. apply G1; auto. unfold done. apply in_app_iff; auto. }
      assert (Hvsup : forall j x, In j P -> vden rc j x <> f0 -> In x P).
      { intros j x Hj Hn. destruct (HPV j Hj) as (lv & Hv & Hin & Hea). rewrite (o_vden _ Hv) in Hn.
        pose proof Hn as Hn'. apply coef_in in Hn'. destruct Hn' as [k Hk]. apply Hin in Hk.
        apply in_split in Hj. destruct Hj as (Q1 & Q2 & EP).
        destruct (@ends_at_unique_split K C blk (coef lv) j Q1 (Q2 ++ c :: P2)) with (c := x) as [->|H]; auto.
        - now apply o_block_nodup.
        - rewrite Eb, EP, <- app_assoc. reflexivity.
        - rewrite EP. apply in_app_iff; simpl; auto.
        - rewrite EP. apply in_app_iff; auto. }
      destruct (@gen_loop_spec HI K C F phi (m_colf (product_f (by_ref D) (crm_column (m_col D) rc)))
          (m_colf (with_trivial_filtration (crm_column (m_col D) rc))) low (row_set (m_col D) l) (rden rc) (vden rc))
        with (fuel := fuel) (r_i := r0) (v_i := empty_bhcol HI unit_ord C K) (S' := row_set (m_col D) l)
        as (r' & v' & -> & steps & Q1 & Q2 & Q3 & Q4 & Q5 & Q6 & Q7); auto.
      { intros i j k Hg. apply HL in Hg. destruct Hg as (Hj & Hlead & Hk).
        destruct (HPV j Hj) as (lv & Hv & Hok). destruct (@o_fetch rc blk j lv Hblk Hv Hok) as [F1 F2].
        refine (conj Hlead (conj Hk (conj _ (conj F1 F2)))). intros r. apply lincomb_row_set. }
      { apply wfc_empty. }
      { intros r Hr. rewrite Dr0 in Hr. eapply mden_row_set; eauto. }
      { intros r Hr. exact Hr. }
      cbn [bind]. unfold save_column. fold rc.
      assert (Hsteps : forall m j, In (m, j) steps -> In j P).
      { intros m j Hin. destruct (Q1 m j Hin) as (i & k & Hg & _). apply HL in Hg. tauto. }
      destruct (drain_sorted_spec Q5) as (es & v2 & Edr & _ & We & De & Ce & Ne).
      set (lv := map e_term es).
      assert (Hlv : forall x, coef (lv ++ [(k_one, c)]) x = fadd (den v' x) (if oeqb c x then f1 else f0)).
      { intros x. rewrite coef_app. unfold lv. rewrite Ce. simpl. destruct (oeqb c x); auto. }
      assert (Hdv : forall x, den v' x <> f0 -> In x P).
      { intros x Hx. destruct (in_dec ord_eq_dec x P) as [|Hn]; auto. exfalso. apply Hx.
        rewrite Q3, den_empty, vsum_0; [ring|]. intros [m j] Hin. simpl. apply Hsteps in Hin.
        destruct (fscalar_dec (vden rc j x)) as [->|Hn']; [ring|]. exfalso. eauto. }
      assert (Hok : col_ok blk c (lv ++ [(k_one, c)])).
      { split.
        - intros k x Hin. apply in_app_iff in Hin. destruct Hin as [Hin|[[= <- <-]|[]]]; auto.
          apply HPb, Hdv. unfold lv in Hin. apply in_map_iff in Hin. destruct Hin as (en & Een & Hene). injection Een as <- <-; rewrite (Ne en Hene). discriminate.
        - exists P, P2. split; auto. rewrite Hlv, oeqb_refl. split.
          + destruct (fscalar_dec (den v' c)) as [->|Hn]; [|exfalso; apply Hcd; unfold done; apply in_app_iff; auto].
            replace (fadd (@f0 K) f1) with (@f1 K) by ring. discriminate.
          + intros x Hx. rewrite Hlv.
            assert (Hnd : NoDup blk) by (now apply o_block_nodup). rewrite Eb in Hnd.
            assert (c <> x). { intros <-. apply NoDup_remove_2 in Hnd. apply Hnd, in_app_iff; auto. }
            apply oeqb_neq in H. rewrite H. destruct (fscalar_dec (den v' x)) as [->|Hn]; [ring|].
            exfalso. apply Hdv in Hn. eapply NoDup_app_disj; eauto. simpl; auto. }
      assert (Hrv : forall r, den r' r = lincomb l (coef (lv ++ [(k_one, c)])) Dm r).
      { intros r. rewrite Q2, Dr0.
        transitivity (lincomb l (fun x => fadd (if oeqb c x then f1 else f0)
                        (vsum steps (fun p => fmul (Some (fst p)) (vden rc (snd p) x)))) Dm r).
        - rewrite lincomb_add, lincomb_unit by auto. f_equal.
          unfold ord_rden. symmetry. unfold lincomb.
          transitivity (vsum l (fun x => vsum steps (fun p => fmul (fmul (Some (fst p)) (vden rc (snd p) x)) (Dm x r)))).
          + apply vsum_ext. intros x _. destruct (F_ring K). rewrite Rmul_comm, <- vsum_mul_l.
            apply vsum_ext. intros p _. rewrite Rmul_comm. reflexivity.
          + rewrite vsum_swap. apply vsum_ext. intros p _. rewrite <- vsum_mul_l. apply vsum_ext.
            intros x _. destruct (F_ring K). now rewrite Rmul_assoc.
        - apply lincomb_ext; auto. intros x _. rewrite Hlv, Q3, den_empty. ring. }
      assert (Hdegr : forall r, den r' r <> f0 -> g r = (g c + e)%Z).
      { intros r Hr. rewrite Hrv in Hr. apply lincomb_nonzero in Hr. destruct Hr as (x & Hxl & Hx & Hn).
        apply coef_in in Hx. destruct Hx as [k Hk]. apply (proj1 Hok) in Hk. destruct (@o_dm x r Hxl Hn) as [-> _]. f_equal. apply (Hdeg Hblk Hcb Hxl); auto. }
      (* the new table *)
      set (rc1 := match peek_pivot r' with Some p => map_insert (e_row p) (Cleared c) rc | None => rc end).
      set (rcn := map_insert c (Reduced lv) rc1).
      set (dg := match peek_pivot r' with
        | Some p => Diagram (essential (bd_dgm bd)) (@set_insert (pair_ord C C) (e_row p, c) (pairings (bd_dgm bd)))
        | None => Diagram (set_insert c (essential (bd_dgm bd))) (pairings (bd_dgm bd)) end).
      set (lown := match peek_pivot r' with Some p => map_insert (e_row p) (c, e_coeff p) low | None => low end).
      exists (Builder dg rcn), lown. split.
      { rewrite Edr. unfold dg, rcn, rc1, lown. destruct (peek_pivot r'); reflexivity. }
      cbn [bd_rc].
      assert (Hpk : forall p, peek_pivot r' = Some p -> leading phi (den r') (e_row p) /\ den r' (e_row p) = Some (e_coeff p) /\
                 map_get (e_row p) low = None /\ (forall j, map_get (e_row p) rc <> Some (Cleared j)) /\ e_row p <> c /\ ~ In (e_row p) blk /\
                 (In (e_row p) done -> vzero (rden rc (e_row p)))).
      { intros p Hp. destruct Q7 as [[_ H]|(p' & Hp' & _ & H1 & H2 & H3)]; [congruence|]. rewrite Hp in Hp'. injection Hp' as <-.
        assert (Hn : den r' (e_row p) <> f0) by apply H1. pose proof (Hdegr _ Hn) as Hgp.
        assert (Hnb : ~ In (e_row p) blk).
        { intros Hi. assert (g (e_row p) = g c) by (apply (Hdeg Hblk Hcb); auto; eapply o_block_incl; eauto). lia. }
        refine (conj H1 (conj H2 (conj H3 (conj _ (conj _ (conj Hnb _)))))).
        - intros j Hj. apply G2 in Hj. destruct Hj as [Hj Hlead]. assert (Hgj : g (e_row p) = (g j + e)%Z) by (apply Hdrow; auto; apply Hlead).
          assert (HjP : In j P) by (apply HPdeg; auto; lia).
          assert (exists a, rden rc j (e_row p) = Some a) as [a Ha].
          { destruct Hlead as [Hl1 _]. destruct (rden rc j (e_row p)) eqn:Er; eauto. now destruct Hl1. }
          assert (map_get (e_row p) low = Some (j, a)) by (apply HL; auto). congruence.
        - intros Epc. apply Hnb. now rewrite Epc.
        - intros Hd. assert (Hip : In (e_row p) (concat pre)).
          { unfold done in Hd. apply in_app_iff in Hd. destruct Hd as [|Hd]; auto. exfalso. apply Hnb. auto. }
          apply in_concat in Hip. destruct Hip as (bk & Hbk & Hib). assert (Hbk' : In bk blocks) by (rewrite E; apply in_app_iff; auto).
          assert (Hbd : incl bk done) by (intros y Hy; unfold done; apply in_app_iff; left; apply in_concat; eauto).
          assert (Hsup : forall r, den r' r <> f0 -> In r bk).
          { intros r Hr. pose proof (Hdegr _ Hr) as Hgr. rewrite Hrv in Hr. apply lincomb_nonzero in Hr. destruct Hr as (x & Hxl & _ & Hnr).
            destruct (@o_dm x r Hxl Hnr) as [_ HT]. apply (Hdeg Hbk' Hib); [apply HT; exists (e_row p); split; auto; lia|lia]. }
          apply (@o_positive rc bk (e_row p) (den r') Hbk' Hib).
          + intros y Hy. apply G1; auto.
          + intros y k r Hy Hk L1 L2. assert (A1 : map_get r rc = Some (Cleared y)) by (apply G2; auto). assert (A2 : map_get r rc = Some (Cleared k)) by (apply G2; auto). congruence.
          + apply in_split in Hib. destruct Hib as (N1 & N2 & EN). exists N1, N2. split; auto. split; auto. intros y Hy. apply H1. apply (Hrow (blk := bk)); auto.
            apply before_split. exists N1, N2. auto.
          + intros r. transitivity (lincomb l (den r') Dm r).
            { symmetry. apply lincomb_incl; auto; [now apply o_block_nodup|now apply o_block_incl|].
              intros y _ Hy. destruct (fscalar_dec (den r' y)) as [|Hne]; auto. exfalso. auto. }
            transitivity (lincomb l (lincomb l (coef (lv ++ [(k_one, c)])) Dm) Dm r); [|apply o_cycle]. apply lincomb_ext; auto. }
      assert (Hpn : peek_pivot r' = None -> vzero (den r')).
      { intros Hp. destruct Q7 as [[H _]|(p' & Hp' & _)]; [auto|congruence]. }
      assert (Hgn : forall x, map_get x rcn = if oeqb c x then Some (Reduced lv) else
                 match peek_pivot r' with Some p => if oeqb (e_row p) x then Some (Cleared c) else map_get x rc | None => map_get x rc end).
      { intros x. unfold rcn. rewrite map_get_insert. destruct (oeqb c x); auto. unfold rc1. destruct (peek_pivot r'); auto. apply map_get_insert. }
      assert (Hcr : map_get c rcn = Some (Reduced lv)) by (unfold rcn; apply map_get_insert_eq).
      assert (Hvn : vcol rcn c (lv ++ [(k_one, c)])) by (left; exists lv; auto).
      assert (Hrn : forall r, rden rcn c r = den r' r).
      { intros r. rewrite Hrv. apply lincomb_ext; auto. intros x _. now rewrite (o_vden _ Hvn). }
      assert (Hsame : forall x, In x done -> (forall p, peek_pivot r' = Some p -> e_row p <> x) -> map_get x rcn = map_get x rc).
      { intros x Hx Hp. rewrite Hgn. destruct (oeqb_spec c x) as [<-|_]; [contradiction|]. destruct (peek_pivot r') as [p|]; auto.
        destruct (oeqb_spec (e_row p) x) as [Hpx|_]; auto. exfalso. eapply Hp; eauto. }
      assert (HnzR : forall j i t, In j done -> leading phi (rden rc j) i -> map_get j rc = Some (Reduced t) -> map_get j rcn = Some (Reduced t)).
      { intros j i t Hj Hlead Et. rewrite Hsame; auto. intros p Hp <-. destruct (Hpk p Hp) as (_ & _ & _ & _ & _ & _ & Hz). eapply leading_not_zero; [exact Hlead|auto]. }
      assert (Hvo : forall x lx, In x done -> (forall p, peek_pivot r' = Some p -> e_row p <> x) -> vcol rc x lx -> vcol rcn x lx).
      { intros x lx Hx Hp [(t & Et & ->)|(j & t & Et & Et' & Epr)].
        - left. exists t. rewrite Hsame; auto.
        - right. exists j, t. rewrite Hsame by auto. split; auto. split; auto. pose proof (proj1 (G2 _ _) Et) as [Hj Hlead]. eapply HnzR; eauto. }
      assert (Hvp : forall p bk, peek_pivot r' = Some p -> In bk blocks -> In (e_row p) bk -> exists lp, vcol rcn (e_row p) lp /\ col_ok bk (e_row p) lp /\ vzero (rden rcn (e_row p))).
      { intros p bk Hp Hbk Hib. destruct (Hpk p Hp) as (L1 & _ & _ & _ & Hne & _).
        destruct (@o_cleared rcn blk bk (e_row p) c lv Hblk Hcb Hbk Hib) as (lp & A1 & A2 & A3 & _); eauto.
        - rewrite Hgn, Hp. destruct (oeqb_spec c (e_row p)) as [Ec|_]; [congruence|]. now rewrite oeqb_refl.
        - intros lv' Hv'. assert (lv' = lv ++ [(k_one, c)]) by (apply vcol_crm in Hv', Hvn; congruence). now subst.
        - eapply leading_ext; [|exact L1]. auto. }
      assert (Hpd : forall x, {p | peek_pivot r' = Some p /\ e_row p = x} + {forall p, peek_pivot r' = Some p -> e_row p <> x}).
      { intros x. destruct (peek_pivot r') as [p|]; [|right; discriminate]. destruct (ord_eq_dec (e_row p) x) as [Hpx|Hpx]; [left; eauto|right; intros p' [= <-]; auto]. }
      assert (Hro : forall j, In j done -> forall r, rden rcn j r = rden rc j r).
      { intros j Hj r. destruct (Hpd j) as [(p & Hp & <-)|Hnp].
        - destruct (HdoneV _ Hj) as (bk & lj & Hbk & Hjb & _). destruct (Hvp p bk Hp Hbk Hjb) as (lp & _ & _ & Hz). destruct (Hpk p Hp) as (_ & _ & _ & _ & _ & _ & Hz'). rewrite Hz. symmetry. now apply Hz'.
        - destruct (HdoneV j Hj) as (bk & lj & _ & _ & Hv & _). apply lincomb_ext; auto. intros x _. rewrite (o_vden _ Hv), (o_vden _ (Hvo _ _ Hj Hnp Hv)). reflexivity. }
      assert (Hlo : forall j i, In j done -> (leading phi (rden rcn j) i <-> leading phi (rden rc j) i)).
      { intros j i Hj. split; apply leading_ext; intros r; rewrite Hro; auto. }
      assert (Hln : forall i, leading phi (rden rcn c) i <-> exists p, peek_pivot r' = Some p /\ e_row p = i).
      { intros i. split.
        - intros Hi. destruct (peek_pivot r') as [p|] eqn:Ep.
          + exists p. split; auto. destruct (Hpk p eq_refl) as (H1 & _). eapply leading_unique; [exact H1|].
            eapply leading_ext; [|exact Hi]. auto.
          + exfalso. eapply leading_not_zero; [exact Hi|]. intros r. rewrite Hrn. now apply Hpn.
        - intros (p & Ep & <-). destruct (Hpk p Ep) as (H1 & _). eapply leading_ext; [|exact H1]. auto. }
      assert (Hleadc : forall j, In j done -> ~ leading phi (rden rc j) c).
      { intros j Hj H. assert (map_get c rc = Some (Cleared j)) by (apply G2; auto). congruence. }
      assert (Hleadp : forall p j, peek_pivot r' = Some p -> In j done -> ~ leading phi (rden rc j) (e_row p)).
      { intros p j Hp Hj H. destruct (Hpk p Hp) as (_ & _ & _ & H3 & _). apply (H3 j). apply G2; auto. }
      split.
      + unfold oinv. cbn [bd_rc bd_dgm]. rewrite Hdone'.
        refine (conj _ (conj _ (conj _ (conj _ (conj _ (conj (conj _ _) (conj _ _))))))).
        * intros bk x Hbk Hx Hd. apply in_app_iff in Hd. destruct Hd as [Hd|[<-|[]]].
          -- destruct (Hpd x) as [(p & Hp & <-)|Hnp].
             ++ destruct (Hvp p bk Hp Hbk Hx) as (lp & A1 & A2 & _). eauto.
             ++ destruct (G1 bk x Hbk Hx Hd) as (lx & H1 & H2). exists lx. split; auto.
          -- rewrite (o_block_eq _ _ _ Hbk Hblk Hx Hcb). eauto.
        * intros x j. rewrite Hgn, in_app_iff. simpl. destruct (oeqb_spec c x) as [<-|Hcx].
          -- split; [discriminate|]. intros [[Hj|[<-|[]]] Hlead]; exfalso.
             ++ apply Hlo in Hlead; auto. eapply Hleadc; eauto.
             ++ apply Hln in Hlead. destruct Hlead as (p & Hp & Hpc). destruct (Hpk p Hp) as (_ & _ & _ & _ & Hne & _). auto.
          -- destruct (peek_pivot r') as [p|] eqn:Ep.
             ++ destruct (oeqb_spec (e_row p) x) as [<-|Hpx].
                ** split.
                   --- intros [= <-]. split; auto. apply Hln. eauto.
                   --- intros [[Hj|[<-|[]]] Hlead]; auto. exfalso. apply Hlo in Hlead; auto. eapply Hleadp; eauto.
                ** rewrite G2. split.
                   --- intros [Hj Hlead]. split; auto. apply Hlo; auto.
                   --- intros [[Hj|[<-|[]]] Hlead]; [split; auto; apply Hlo; auto|]. exfalso. apply Hln in Hlead.
                       destruct Hlead as (p' & [= <-] & Hp'). auto.
             ++ rewrite G2. split.
                ** intros [Hj Hlead]. split; auto. apply Hlo; auto.
                ** intros [[Hj|[<-|[]]] Hlead]; [split; auto; apply Hlo; auto|]. exfalso. apply Hln in Hlead.
                   destruct Hlead as (p' & [=] & _).
        * intros x j. rewrite Hgn. destruct (oeqb_spec c x) as [<-|Hcx]; [discriminate|].
          assert (Hold : map_get x rc = Some (Cleared j) -> exists t, map_get j rcn = Some (Reduced t)).
          { intros H. destruct (G3 _ _ H) as (t & Ht). exists t. pose proof (proj1 (G2 _ _) H) as [Hj Hlead]. eapply HnzR; eauto. }
          assert (Hnew : exists t, map_get c rcn = Some (Reduced t)) by eauto.
          destruct (peek_pivot r') as [p|]; auto. destruct (oeqb (e_row p) x); auto. intros [= <-]. auto.
        * intros x t. rewrite Hgn, in_app_iff. simpl. destruct (oeqb_spec c x) as [<-|Hcx].
          -- intros [= <-]. split; auto. unfold lv. rewrite Ce.
             destruct (fscalar_dec (den v' c)) as [|Hn]; auto. exfalso. apply Hcd. unfold done. apply in_app_iff. auto.
          -- assert (HG : map_get x rc = Some (Reduced t) -> (In x done \/ c = x \/ False) /\ coef t x = f0).
             { intros H. destruct (G4 _ _ H) as [H1 H2]. auto. }
             destruct (peek_pivot r') as [p|]; auto. destruct (oeqb (e_row p) x); auto. discriminate.
        * intros x Hx. rewrite Hgn. destruct (oeqb_spec c x) as [_|Hcx]; [discriminate|]. apply in_app_iff in Hx. destruct Hx as [Hx|[->|[]]]; [|congruence].
          apply G5 in Hx. destruct (peek_pivot r') as [p|]; auto. destruct (oeqb (e_row p) x); auto. discriminate.
        * unfold dg. destruct (peek_pivot r') as [p|]; simpl; auto. apply (@nodup_set_insert (pair_ord C C)). auto.
        * intros i j. rewrite in_app_iff. simpl.
          assert (HH : In (i, j) (pairings dg) <-> In (i, j) (pairings (bd_dgm bd)) \/ exists p, peek_pivot r' = Some p /\ e_row p = i /\ j = c).
          { unfold dg. destruct (peek_pivot r') as [p|]; simpl.
            - rewrite (@in_set_insert (pair_ord C C)). split.
              + intros [H|H]; [right; injection H as -> ->; eauto|auto].
              + intros [H|(p' & [= <-] & <- & ->)]; auto.
            - split; auto. intros [H|(p' & [=] & _)]; auto. }
          rewrite HH, G6. split.
          -- intros [[Hj Hlead]|(p & Hp & <- & ->)].
             ++ split; auto. apply Hlo; auto.
             ++ split; auto. apply Hln. eauto.
          -- intros [[Hj|[<-|[]]] Hlead].
             ++ left. split; auto. apply Hlo; auto.
             ++ right. apply Hln in Hlead. destruct Hlead as (p & Hp & Hi). eauto.
        * unfold dg. destruct (peek_pivot r') as [p|]; simpl; auto. apply nodup_set_insert. auto.
        * intros x. rewrite in_app_iff. simpl.
          assert (HH : In x (essential dg) <-> In x (essential (bd_dgm bd)) \/ (peek_pivot r' = None /\ x = c)).
          { unfold dg. destruct (peek_pivot r') as [p|]; simpl.
            - split; auto. intros [H|([=] & _)]; auto.
            - rewrite in_set_insert. split; [intros [->|H]; auto|intros [H|[_ ->]]; auto]. }
          rewrite HH, G7. split.
          -- intros [(H1 & H2 & H3)|(Hp & ->)].
             ++ split; auto. split; [intros r; rewrite Hro; auto|]. intros j Hj. assert (Hjp : In j (concat pre)) by (eapply Hear; [apply in_app_iff; left; exact H1|exact Hj]).
                rewrite Hlo; auto. unfold done. apply in_app_iff; auto.
             ++ split; auto. split; [intros r; rewrite Hrn; now apply Hpn|]. intros j Hj. assert (Hjp : In j (concat pre)) by (eapply Hear; [apply in_app_iff; right; simpl; eauto|exact Hj]).
                assert (Hjd : In j done) by (unfold done; apply in_app_iff; auto). rewrite Hlo; auto.
          -- intros ([H1|[<-|[]]] & H2 & H3).
             ++ left. split; auto. split; [intros r; rewrite <- Hro; auto|]. intros j Hj Hlead. apply (H3 j); auto. apply Hlo; auto.
                unfold done. apply in_app_iff. left. eapply Hear; [apply in_app_iff; left; exact H1|exact Hj].
             ++ right. split; auto. destruct (peek_pivot r') as [p|] eqn:Ep; auto. exfalso.
                destruct (Hpk p eq_refl) as ([Hn _] & _). apply Hn. rewrite <- Hrn. apply H2.
      + intros i j k. rewrite in_app_iff. simpl.
        assert (HPd : forall j, In j P -> In j done) by (intros; unfold done; apply in_app_iff; auto).
        assert (HPnc : ~ In c P) by (intros H; apply Hcd; auto).
        unfold lown. destruct (peek_pivot r') as [p|] eqn:Ep.
        * destruct (Hpk p eq_refl) as (P1 & P2' & P3 & _ & _). rewrite map_get_insert. destruct (oeqb_spec (e_row p) i) as [<-|Hi].
          -- split.
             ++ intros [= <- <-]. split; auto. split; [apply Hln; eauto|]. now rewrite Hrn.
             ++ intros ([Hj|[<-|[]]] & H2 & H3).
                ** exfalso. eapply Hleadp; eauto. apply Hlo; auto.
                ** rewrite Hrn in H3. congruence.
          -- rewrite (HL i j k). split.
             ++ intros (Hj & H2 & H3). split; auto. split; [apply Hlo; auto|]. rewrite Hro; auto.
             ++ intros ([Hj|[<-|[]]] & H2 & H3).
                ** split; auto. split; [apply Hlo; auto|]. rewrite <- Hro; auto.
                ** exfalso. apply Hln in H2. destruct H2 as (p' & [= <-] & H2). auto.
        * rewrite (HL i j k). split.
          -- intros (Hj & H2 & H3). split; auto. split; [apply Hlo; auto|]. rewrite Hro; auto.
          -- intros ([Hj|[<-|[]]] & H2 & H3).
             ++ split; auto. split; [apply Hlo; auto|]. rewrite <- Hro; auto.
             ++ exfalso. apply Hln in H2. destruct H2 as (p' & [=] & _).
  Qed.


  Lemma o_fold fuel pre blk post sub P2 : blocks = pre ++ blk :: post -> enumerates sub blk ->
    length (row_set (m_col D) l) < fuel ->
    forall P bd low, blk = P ++ P2 -> oinv pre P bd -> olow P (bd_rc bd) low ->
    exists bd' low', foldM (clear_step HI fuel D sub) (seq (length P) (length P2)) (bd, low) = Ok (bd', low') /\ oinv pre blk bd'.
  Proof.
    intros E Hen Hf. induction P2 as [|c P2 IH]; intros P bd low Eb Hg HL; cbn [length seq foldM].
    - rewrite app_nil_r in Eb. subst P. eauto.
    - destruct (@o_step fuel pre blk post P c P2 bd low sub E Eb Hen Hf Hg HL) as (bd1 & low1 & -> & Hg1 & HL1). cbn [bind].
      destruct (IH (P ++ [c]) bd1 low1) as (bd' & low' & E' & H'); auto.
      + now rewrite <- app_assoc.
      + rewrite app_length in E'. simpl in E'. rewrite Nat.add_comm in E'. simpl in E'. eauto.
  Qed.
  Lemma oinv_done pre P pre' P' bd : concat pre ++ P = concat pre' ++ P' -> oinv pre P bd -> oinv pre' P' bd.
  Proof. unfold oinv. intros E H. rewrite <- E. exact H. Qed.
  Lemma o_reduce fuel pre blk post d sub bd : blocks = pre ++ blk :: post -> sb_dim sb d = Ok sub -> enumerates sub blk ->
    length (row_set (m_col D) l) < fuel -> oinv pre [] bd ->
    exists bd', reduce_dimension HI fuel D sb bd d = Ok bd' /\ oinv (pre ++ [blk]) [] bd'.
  Proof.
    intros E Es Hen Hf Hg. pose proof Hen as [Hsz Hel].
    destruct (@o_fold fuel pre blk post sub blk E Hen Hf [] bd []) as (bd1 & low1 & E1 & Hg1); auto.
    { intros i j k. simpl. split; [discriminate|tauto]. }
    exists bd1. split.
    - unfold reduce_dimension. rewrite Es. cbn [bind]. rewrite Hsz.
      match goal with |- bind ?m ?f = _ => change (bind m f = bind (Ok (bd1, low1)) f); f_equal end. exact E1.
    - eapply oinv_done; [|exact Hg1]. rewrite concat_app. simpl. now rewrite !app_nil_r.
  Qed.
  (** a dimension visited before: every column is skipped *)
  Lemma o_again fuel pre blk d sub bd : In blk pre -> sb_dim sb d = Ok sub -> enumerates sub blk -> oinv pre [] bd ->
    reduce_dimension HI fuel D sb bd d = Ok bd.
  Proof.
    intros Hb Es [Hsz Hel] (_ & _ & _ & _ & G5 & _). unfold reduce_dimension. rewrite Es. cbn [bind].
    assert (H : forall l0 low, (forall i, In i l0 -> i < b_size sub) -> foldM (clear_step HI fuel D sub) l0 (bd, low) = Ok (bd, low)).
    { induction l0 as [|i l0 IH]; intros low Hi; cbn [foldM]; auto. unfold clear_step at 1.
      assert (Hlt : i < b_size sub) by (apply Hi; simpl; auto). rewrite Hsz in Hlt. destruct (nth_error blk i) as [c|] eqn:En; [|apply nth_error_None in En; lia].
      rewrite (Hel _ _ En). cbn [bind].
      assert (Hm : map_mem c (bd_rc bd) = true).
      { unfold map_mem. destruct (map_get c (bd_rc bd)) eqn:Eg; auto. exfalso. apply (G5 c); auto. rewrite app_nil_r. apply in_concat. exists blk. split; auto. eapply nth_error_In; eauto. }
      rewrite Hm. cbn [bind]. apply IH. intros; apply Hi; simpl; auto. }
    rewrite H; [reflexivity|]. intros i Hi. apply in_seq in Hi. lia.
  Qed.
  Lemma o_dims fuel : length (row_set (m_col D) l) < fuel ->
    forall ds seen pre post bd, (forall d, In d seen -> exists blk sub, In blk pre /\ sb_dim sb d = Ok sub /\ enumerates sub blk) ->
    Forall2 (fun d blk => exists sub, sb_dim sb d = Ok sub /\ enumerates sub blk) (first_visits seen ds) post ->
    blocks = pre ++ post -> oinv pre [] bd ->
    exists bd', foldM (reduce_dimension HI fuel D sb) ds bd = Ok bd' /\ foldM (reduce_dimension HI fuel D sb) (first_visits seen ds) bd = Ok bd' /\ oinv blocks [] bd'.
  Proof.
    intros Hf. induction ds as [|d ds IH]; intros seen pre post bd Hseen H2 E Hg; cbn [foldM first_visits] in *.
    - inversion H2; subst. rewrite app_nil_r in E. subst pre. eauto.
    - destruct (existsb (Nat.eqb d) seen) eqn:Ex.
      + apply existsb_exists in Ex. destruct Ex as (d' & Hd & Heq). apply Nat.eqb_eq in Heq. subst d'.
        destruct (Hseen d Hd) as (blk & sub & Hb & Es & Hen). rewrite (@o_again fuel pre blk d sub bd Hb Es Hen Hg). cbn [bind]. eapply IH; eauto.
      + inversion H2 as [|? blk ? post' (sub & Es & Hen) H2']; subst. cbn [foldM].
        destruct (@o_reduce fuel pre blk post' d sub bd E Es Hen Hf Hg) as (bd1 & E1 & Hg1). rewrite E1. cbn [bind].
        apply (IH (d :: seen) (pre ++ [blk]) post'); auto.
        * intros d' [<-|Hd]; [exists blk, sub; split; auto; apply in_app_iff; simpl; auto|].
          destruct (Hseen d' Hd) as (b' & s' & A1 & A2). exists b', s'. split; auto. apply in_app_iff; auto.
        * now rewrite <- app_assoc.
  Qed.
  Lemma o_init : oinv [] [] (Builder (Diagram [] []) []).
  Proof.
    unfold oinv. simpl. refine (conj _ (conj _ (conj _ (conj _ (conj _ (conj (conj _ _) (conj _ _))))))); simpl; try tauto; try constructor; try discriminate; try tauto.
  Qed.
  Theorem o_build fuel ds : dims = first_visits [] ds -> length (row_set (m_col D) l) < fuel ->
    exists rc dg, build_with_diagram HI fuel D sb ds = Ok (rc, dg) /\ build_with_diagram HI fuel D sb dims = Ok (rc, dg) /\ oinv blocks [] (Builder dg rc).
  Proof.
    intros Ed Hf. unfold build_with_diagram. pose proof (proj1 (proj2 HB)) as H2. rewrite Ed in H2. rewrite Ed.
    destruct (@o_dims fuel Hf ds [] [] blocks _ ltac:(intros d []) H2 eq_refl o_init) as ([dg rc] & -> & -> & Hg). cbn [bind bd_rc bd_dgm]. eauto.
  Qed.

  (** *** consequences *)
  Section Final.
    Variables (rc : @rc_map K C) (dg : diagram C).
    Hypothesis Hg : oinv blocks [] (Builder dg rc).
    Variable l' : list C.
    Hypothesis Hl' : NoDup l'.
    Hypothesis Hsame : forall c, In c l' <-> In c l.
    Hypothesis Hord : forall blk x y, In blk blocks -> before blk x y -> before l' x y.

    Lemma o_cols blk c : In blk blocks -> In c blk -> exists lv, crm_column (m_col D) rc c = Ok lv /\
      (forall x, vden rc c x = coef lv x) /\ (forall k x, In (k, x) lv -> In x blk) /\ ends_at blk (coef lv) c.
    Proof.
      intros Hb Hc. destruct Hg as (G1 & _). destruct (G1 blk c Hb Hc) as (lv & Hv & H1 & H2).
      - rewrite app_nil_r. apply in_concat. eauto.
      - exists lv. split; [now apply vcol_crm|]. split; auto. intros x. now apply o_vden.
    Qed.
    Lemma o_birth_zero i j : In i l -> map_get i rc = Some (Cleared j) -> vzero (rden rc i).
    Proof.
      intros Hi Eg. destruct Hg as (G1 & G2 & G3 & _). simpl in *. destruct (G3 _ _ Eg) as [t Et].
      apply G2 in Eg as Hj. destruct Hj as [Hj Hlead]. rewrite app_nil_r in Hj. pose proof Hj as Hj'. apply in_concat in Hj'. destruct Hj' as (bk & Hbk & Hjb).
      pose proof Hi as Hi'. apply in_concat in Hi'. destruct Hi' as (nx & Hnx & Hinx).
      destruct (G1 bk j Hbk Hjb) as (lv & Hv & Hok); [rewrite app_nil_r; auto|].
      destruct (@o_cleared rc bk nx i j t Hbk Hjb Hnx Hinx Eg Et) as (lv' & _ & _ & Hz & _); auto.
      intros lv' Hv'. destruct Hv as [(t1 & A1 & A2)|(j1 & t1 & A1 & _)]; [|congruence].
      destruct Hv' as [(t2 & B1 & B2)|(j2 & t2 & B1 & _)]; [|congruence]. replace lv' with lv; auto. congruence.
    Qed.
    Lemma o_lincomb x r : lincomb l' x Dm r = lincomb l x Dm r.
    Proof.
      apply lincomb_incl; auto.
      - intros c. apply Hsame.
      - intros c Hc Hn. exfalso. apply Hn, Hsame. auto.
    Qed.
    Lemma o_triangular : triangular l' (vden rc).
    Proof.
      intros c Hc. assert (Hc0 := Hc). apply Hsame in Hc. apply in_concat in Hc. destruct Hc as (blk & Hb & Hc).
      destruct (o_cols _ _ Hb Hc) as (lv & _ & Hv & Hin & B1 & B2 & Eb & Hn & Hz).
      apply in_split in Hc0. destruct Hc0 as (A1 & A2 & EA). exists A1, A2. split; auto. rewrite Hv. split; auto.
      intros x Hx. rewrite Hv. destruct (fscalar_dec (coef lv x)) as [|Hnx]; auto. exfalso.
      pose proof Hnx as Hk. apply coef_in in Hk. destruct Hk as [k Hk]. apply Hin in Hk.
      assert (Hbx : before blk x c).
      { rewrite Eb in Hk |- *. apply in_app_iff in Hk. destruct Hk as [Hk|[<-|Hk]].
        - apply in_split in Hk. destruct Hk as (Q1 & Q2 & ->). exists Q1, Q2, B2. now rewrite <- app_assoc.
        - exfalso. rewrite EA in Hl'. apply NoDup_remove_2 in Hl'. apply Hl', in_app_iff; auto.
        - exfalso. apply Hnx. auto. }
      apply (Hord Hb) in Hbx. apply (before_asym Hl' Hbx). apply before_split. eauto.
    Qed.
    Lemma o_reduced : reduced phi l' (fun j => lincomb l' (vden rc j) Dm).
    Proof.
      intros j k i Hj Hk H1 H2. destruct Hg as (_ & G2 & _).
      assert (Hd : forall j, In j l' -> In j (concat blocks ++ [])) by (intros x Hx; rewrite app_nil_r; apply Hsame; auto).
      assert (E1 : map_get i rc = Some (Cleared j)).
      { apply G2. split; auto. eapply leading_ext; [|exact H1]. intros r. apply o_lincomb. }
      assert (E2 : map_get i rc = Some (Cleared k)).
      { apply G2. split; auto. eapply leading_ext; [|exact H2]. intros r. apply o_lincomb. }
      congruence.
    Qed.
    Lemma o_dich : dich phi (fun j => lincomb l' (vden rc j) Dm) l'.
    Proof. intros j _. apply lincomb_dich. Qed.
    Lemma o_lead i j : In j l' -> (leading phi (rden rc j) i <-> is_pair phi l' Dm i j).
    Proof.
      intros Hj. rewrite <- (intrinsic_pair Hl' o_triangular o_reduced o_dich) by auto.
      split; apply leading_ext; intros r; rewrite o_lincomb; auto.
    Qed.
    Lemma o_zero j : In j l' -> (vzero (rden rc j) <-> is_positive l' Dm j).
    Proof.
      intros Hj. rewrite <- (intrinsic_positive Hl' o_triangular o_reduced o_dich) by auto.
      split; intros H r; specialize (H r); rewrite o_lincomb in *; auto.
    Qed.
    Lemma o_pairs : NoDup (pairings dg) /\ forall i j, In (i, j) (pairings dg) <-> In j l' /\ is_pair phi l' Dm i j.
    Proof.
      destruct Hg as (_ & _ & _ & _ & _ & (H1 & H2) & _). simpl in *. split; auto. intros i j. rewrite H2, app_nil_r.
      fold l. rewrite <- Hsame. split; intros [Hj H]; split; auto; apply o_lead; auto.
    Qed.
    Lemma o_essential : NoDup (essential dg) /\ forall c, In c (essential dg) <->
      In c l' /\ is_positive l' Dm c /\ forall j, earlier j c -> ~ is_pair phi l' Dm c j.
    Proof.
      destruct Hg as (_ & _ & _ & _ & _ & _ & (H1 & H2)). simpl in *. split; auto. intros c. rewrite H2, app_nil_r.
      fold l. rewrite <- Hsame.
      assert (He' : forall j, earlier j c -> In j l').
      { intros j (p1 & p2 & E & Hj & _). apply Hsame. unfold l. rewrite E, concat_app. apply in_app_iff; auto. }
      split; intros (H3 & H4 & H5); (split; [auto|split; [apply o_zero; auto|]]).
      - intros k Hk Hp. apply (H5 k Hk). apply o_lead; auto.
      - intros k Hk Hp. apply (H5 k Hk). apply o_lead; auto.
    Qed.
  End Final.
End Ord.
