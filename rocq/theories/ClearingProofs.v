(** The clearing algorithm: termination, no panics, a valid decomposition. *)
From Verif Require Import Base Fields Spec LinAlg Columns ColumnsFacts Matrices SpecMat MatricesFacts Reduction LoopProofs StandardProofs ReadOffProofs Graded.
From Coq Require Import Ring Field Sorted.
Set Implicit Arguments.

Lemma app_inv_mid {A} (x : A) l1 l2 m1 m2 : NoDup (l1 ++ x :: l2) -> l1 ++ x :: l2 = m1 ++ x :: m2 -> l1 = m1 /\ l2 = m2.
Proof. apply nodup_split_unique. Qed.

Lemma NoDup_app_r {A} (a b : list A) : NoDup (a ++ b) -> NoDup b.
Proof. induction a as [|x a IH]; simpl; auto. intros H. inversion H; auto. Qed.
Lemma NoDup_app_l {A} (a b : list A) : NoDup (a ++ b) -> NoDup a.
Proof.
  induction a as [|x a IH]; simpl; intros H; constructor; inversion H; subst; auto.
  rewrite in_app_iff in *. tauto.
Qed.
Lemma NoDup_app_disj {A} (a b : list A) x : NoDup (a ++ b) -> In x a -> In x b -> False.
Proof.
  induction a as [|y a IH]; simpl; [tauto|]. intros H [->|Hi] Hb; inversion H; subst.
  - rewrite in_app_iff in *. tauto.
  - auto.
Qed.

Lemma ends_at_unique_split {K : coeffT} {C : ordT} (B : list C) (x : vec K C) j B1 B2 :
  NoDup B -> B = B1 ++ j :: B2 -> ends_at B x j -> forall c, In c B -> x c <> f0 -> c = j \/ In c B1.
Proof.
  intros Hn E (A1 & A2 & E' & Hj & Hz) c Hc Hx. subst B. apply nodup_split_unique in E'; auto. destruct E' as [-> ->].
  apply in_app_iff in Hc. destruct Hc as [Hc|[Hc|Hc]]; auto. exfalso. auto.
Qed.

Section Clr.
  Variable HI : heaps.
  Context {K : coeffT} {C F : ordT}.
  Add Field KFC : (F_field K).
  Variables (phi : C -> F) (D : fmatrix K C C F) (sb : split_basis C) (dims : list nat) (blocks : list (list C)).
  Hypothesis HB : block_complex phi D sb dims blocks.
  Let l := concat blocks.
  Let Dm := mden (m_col D).

  Let Hl : NoDup l. Proof. apply HB. Qed.
  Let HD : forall c, In c l -> coherent_at phi D c. Proof. apply HB. Qed.
  Let Hrow : forall blk x y, In blk blocks -> before blk x y -> row_lt phi x y. Proof. apply HB. Qed.
  Let Hnext : forall pre blk next post, blocks = pre ++ blk :: next :: post -> forall c, In c blk ->
     (forall t k r, m_col D c = Ok t -> In (k, r) t -> In r next) /\ vzero (lincomb next (Dm c) Dm).
  Proof. apply HB. Qed.
  Let Hlast : forall pre blk, blocks = pre ++ [blk] -> forall c r, In c blk -> Dm c r <> f0 -> ~ In r l.
  Proof. apply HB. Qed.

  Lemma dm_next pre blk next post c r : blocks = pre ++ blk :: next :: post -> In c blk -> Dm c r <> f0 -> In r next.
  Proof.
    intros E Hc Hn. destruct (Hnext _ _ _ _ E c Hc) as [H _]. unfold Dm, mden in Hn.
    destruct (m_col D c) as [t| |] eqn:Et; try congruence. apply coef_in in Hn. destruct Hn as [k Hk]. eauto.
  Qed.

  Lemma block_incl pre blk post : blocks = pre ++ blk :: post -> incl blk l.
  Proof. intros E x Hx. unfold l. rewrite E, concat_app. simpl. rewrite !in_app_iff. auto. Qed.
  Lemma block_nodup pre blk post : blocks = pre ++ blk :: post -> NoDup blk.
  Proof.
    intros E. pose proof Hl as H. unfold l in H. rewrite E, concat_app in H. simpl in H.
    apply NoDup_app_r, NoDup_app_l in H. exact H.
  Qed.
  (** rows of the current block's columns are in no block visited so far *)
  Lemma row_fresh pre blk post c r : blocks = pre ++ blk :: post -> In c blk -> Dm c r <> f0 -> ~ In r (concat pre ++ blk).
  Proof.
    intros E Hc Hn. destruct post as [|next post].
    - intros Hi. apply (Hlast _ _ E c r Hc Hn). unfold l. rewrite E, concat_app. simpl. rewrite app_nil_r. exact Hi.
    - pose proof (@dm_next _ _ _ _ _ _ E Hc Hn) as Hr. intros Hi. pose proof Hl as H. unfold l in H.
      rewrite E, concat_app in H. simpl in H. rewrite app_assoc in H.
      revert H Hi. generalize (concat pre ++ blk) as A, (concat post) as B. clear -Hr. intros A B H Hi.
      apply in_split in Hr. destruct Hr as (N1 & N2 & ->).
      rewrite <- app_assoc in H. simpl in H. rewrite app_assoc in H. apply NoDup_remove_2 in H. apply H.
      rewrite !in_app_iff. auto.
  Qed.
  (** rows of an earlier block's columns are in the blocks visited so far, including the current one *)
  Lemma row_old pre blk post c r : blocks = pre ++ blk :: post -> In c (concat pre) -> Dm c r <> f0 -> In r (concat pre ++ blk).
  Proof.
    intros E Hc Hn. apply in_concat in Hc. destruct Hc as (bc & Hbc & Hc). apply in_split in Hbc. destruct Hbc as (p1 & p2 & ->).
    destruct p2 as [|nx p2].
    - rewrite <- app_assoc in E. simpl in E. apply in_app_iff. right. eapply dm_next; eauto.
    - rewrite <- app_assoc in E. simpl in E. apply in_app_iff. left. rewrite concat_app. simpl. rewrite !in_app_iff.
      right. right. left. eapply dm_next; eauto.
  Qed.

  Lemma block_unique b1 b2 c : In b1 blocks -> In b2 blocks -> In c b1 -> In c b2 -> b1 = b2.
  Proof.
    pose proof Hl as H. unfold l in H. revert H. clear. induction blocks as [|bk bs IH]; simpl; [tauto|]. intros H Hb1 Hb2 Hc1 Hc2.
    destruct Hb1 as [<-|Hb1], Hb2 as [<-|Hb2]; auto.
    - exfalso. eapply NoDup_app_disj; eauto. apply in_concat. eauto.
    - exfalso. eapply NoDup_app_disj; eauto. apply in_concat. eauto.
    - apply IH; auto. eapply NoDup_app_r; eauto.
  Qed.
  Lemma cur_not_done pre blk post P c P2 : blocks = pre ++ blk :: post -> blk = P ++ c :: P2 -> ~ In c (concat pre ++ P).
  Proof.
    intros E Eb Hi. pose proof Hl as H. unfold l in H. rewrite E, concat_app in H. simpl in H. rewrite Eb in H.
    rewrite <- !app_assoc in H. simpl in H. rewrite app_assoc in H. apply NoDup_remove_2 in H. apply H. rewrite in_app_iff. auto.
  Qed.
  Lemma done_incl pre blk post P P2 : blocks = pre ++ blk :: post -> blk = P ++ P2 -> incl (concat pre ++ P) l.
  Proof.
    intros E Eb x Hx. unfold l. rewrite E, concat_app. simpl. rewrite Eb, !in_app_iff in *. tauto.
  Qed.

  (** *** the reduction-matrix oracle *)
  Definition vcol (rc : @rc_map K C) (c : C) (lv : list (K * C)) : Prop :=
    (exists t, map_get c rc = Some (Reduced t) /\ lv = t ++ [(k_one, c)]) \/
    (exists j t, map_get c rc = Some (Cleared j) /\ map_get j rc = Some (Reduced t) /\
       matrix_col_product (m_col D) (t ++ [(k_one, j)]) = Ok lv).

  Lemma vcol_crm rc c lv : vcol rc c lv -> crm_column (m_col D) rc c = Ok lv.
  Proof.
    unfold crm_column. intros [(t & E & ->)|(j & t & E & E' & Ep)].
    - simpl. rewrite E. reflexivity.
    - destruct rc as [|p rc]; [discriminate|]. remember (p :: rc) as m. assert (length m = S (length rc)) by (subst; reflexivity).
      rewrite H. cbn [crm_column_fuel]. rewrite E. cbn [unwrap bind]. rewrite E'. cbn [unwrap bind]. exact Ep.
  Qed.

  Definition extends (rc rc' : @rc_map K C) : Prop := forall c e, map_get c rc = Some e -> map_get c rc' = Some e.
  Lemma vcol_extends rc rc' c lv : extends rc rc' -> vcol rc c lv -> vcol rc' c lv.
  Proof.
    intros H [(t & E & ->)|(j & t & E & E' & Ep)].
    - left. exists t. auto.
    - right. exists j, t. auto.
  Qed.
  Lemma extends_insert rc c e : map_get c rc = None -> extends rc (map_insert c e rc).
  Proof.
    intros H c' e' E. rewrite map_get_insert. destruct (oeqb_spec c c') as [<-|]; auto. congruence.
  Qed.
  Lemma extends_trans a b c : extends a b -> extends b c -> extends a c.
  Proof. intros H1 H2 x e H. auto. Qed.

  Definition vden (rc : @rc_map K C) (c : C) : vec K C := mden (crm_column (m_col D) rc) c.
  Definition rden (rc : @rc_map K C) (c : C) : vec K C := lincomb l (vden rc c) Dm.

  Lemma vden_vcol rc c lv x : vcol rc c lv -> vden rc c x = coef lv x.
  Proof. intros H. apply vcol_crm in H. unfold vden. now apply mden_ok. Qed.
  Lemma rden_extends rc rc' c lv r : extends rc rc' -> vcol rc c lv -> rden rc' c r = rden rc c r.
  Proof.
    intros He Hv. apply lincomb_ext; auto. intros x _. rewrite (vden_vcol _ (vcol_extends He Hv)), (vden_vcol _ Hv). reflexivity.
  Qed.

  (** a good column of V for [c] in block [blk] *)
  Definition col_ok (blk : list C) (c : C) (lv : list (K * C)) : Prop :=
    (forall k x, In (k, x) lv -> In x blk) /\ ends_at blk (coef lv) c.

  Lemma rden_row rc blk c lv r : vcol rc c lv -> col_ok blk c lv ->
    rden rc c r <> f0 -> exists x, In x blk /\ Dm x r <> f0.
  Proof.
    intros Hv [Hin _] Hn. apply lincomb_nonzero in Hn. destruct Hn as (x & _ & Hx & Hn).
    rewrite (vden_vcol _ Hv) in Hx. apply coef_in in Hx. destruct Hx as [k Hk]. eauto.
  Qed.

  (** *** invariant: [pre] done, [P] the visited part of the current block [blk] *)
  Definition ginv (pre : list (list C)) (P : list C) (bd : @builder K C) : Prop :=
    let done := concat pre ++ P in
    let rc := bd_rc bd in
    (forall bk c, In bk blocks -> In c bk -> In c done -> exists lv, vcol rc c lv /\ col_ok bk c lv) /\
    (forall c j, map_get c rc = Some (Cleared j) <-> In j done /\ leading phi (rden rc j) c) /\
    (forall c j, map_get c rc = Some (Cleared j) -> exists t, map_get j rc = Some (Reduced t)) /\
    (forall c t, map_get c rc = Some (Reduced t) -> In c done /\ coef t c = f0 /\
       StronglySorted (fun x y => olt y x) (map snd t)) /\
    (forall c, In c done -> map_get c rc <> None) /\
    (NoDup (pairings (bd_dgm bd)) /\ forall i j, In (i, j) (pairings (bd_dgm bd)) <-> In j done /\ leading phi (rden rc j) i) /\
    (NoDup (essential (bd_dgm bd)) /\ forall c, In c (essential (bd_dgm bd)) <->
       In c done /\ vzero (rden rc c) /\ forall j, In j done -> ~ leading phi (rden rc j) c).

  Definition low_inv (P : list C) (rc : @rc_map K C) (low : @low_map K C) : Prop :=
    forall i j k, map_get i low = Some (j, k) <-> In j P /\ leading phi (rden rc j) i /\ rden rc j i = Some k.

  Lemma fetch_clr rc pre blk post j lv : blocks = pre ++ blk :: post -> vcol rc j lv -> col_ok blk j lv ->
    (exists es, m_colf (product_f (by_ref D) (crm_column (m_col D) rc)) j = Ok es /\ wfe phi es /\
       forall r, coef (map e_term es) r = rden rc j r) /\
    (exists vs, m_colf (with_trivial_filtration (crm_column (m_col D) rc)) j = Ok vs /\ wfe triv vs /\
       forall r, coef (map e_term vs) r = vden rc j r).
  Proof.
    intros E Hv [Hin _]. pose proof (vcol_crm Hv) as Ec.
    assert (Hinl : forall k x, In (k, x) lv -> In x l) by (intros k x Hx; eapply block_incl; eauto).
    split.
    - destruct (@product_f_ok K C C C F phi (by_ref D) (crm_column (m_col D) rc) j lv Ec) as (es & E1 & E2 & E3).
      + intros k x Hx. apply coherent_by_ref. eauto.
      + exists es. split; auto. split; auto. intros r. rewrite E3. unfold rden.
        change (m_col (by_ref D)) with (m_col D). rewrite (@coef_combine K C C lv (mden (m_col D)) l r); eauto.
        apply lincomb_ext; auto. intros x _. now rewrite (vden_vcol _ Hv).
    - exists (tag (F:=unit_ord) triv lv). split; [|split].
      + simpl. apply default_colf_ok; auto.
      + apply tag_wfe.
      + intros r. rewrite tag_terms. now rewrite (vden_vcol _ Hv).
  Qed.

  (** the cleared case: the reduced column of the death is a cycle ending at [c] *)
  Lemma cleared_col rc pre blk next post c j t : blocks = pre ++ blk :: next :: post ->
    map_get c rc = Some (Cleared j) -> map_get j rc = Some (Reduced t) ->
    (forall lv, vcol rc j lv -> col_ok blk j lv) -> leading phi (rden rc j) c ->
    exists lv, vcol rc c lv /\ col_ok next c lv /\ vzero (rden rc c) /\ (forall x, vden rc c x = rden rc j x).
  Proof.
    intros E Hc Hj Hok Hlead.
    assert (Hv : vcol rc j (t ++ [(k_one, j)])) by (left; eauto).
    destruct (Hok _ Hv) as [Hin He].
    assert (Hbl : incl blk l) by (eapply block_incl; eauto).
    assert (E' : blocks = (pre ++ [blk]) ++ next :: post) by (rewrite <- app_assoc; exact E).
    destruct (@matrix_col_product_ok K C C (m_col D) (t ++ [(k_one, j)])) as (lv & Ep & Hrows & Hcoef).
    { intros k x Hx. destruct (@HD x) as (q & es & H1 & _); [eauto|eauto]. }
    assert (Hvc : vcol rc c lv) by (right; exists j, t; auto).
    assert (Hcr : forall x, coef lv x = rden rc j x).
    { intros x. rewrite Hcoef. unfold rden. rewrite (@coef_combine K C C _ (mden (m_col D)) l x); eauto.
      apply lincomb_ext; auto. intros y _. now rewrite (vden_vcol _ Hv). }
    assert (Hsup : forall x, rden rc j x <> f0 -> In x next).
    { intros x Hx. destruct (@rden_row rc blk j _ x Hv (Hok _ Hv) Hx) as (y & Hy & Hn). eapply dm_next; eauto. }
    exists lv. split; auto. split; [|split].
    - split.
      + intros k x Hx. destruct (Hrows k x Hx) as (k' & y & ly & k'' & H1 & H2 & H3).
        destruct (Hnext _ _ _ _ E y (Hin _ _ H1)) as [H _]. eapply H; eauto.
      + assert (Hcn : In c next) by (apply Hsup; apply Hlead).
        apply in_split in Hcn. destruct Hcn as (N1 & N2 & EN). exists N1, N2. split; auto. split.
        * rewrite Hcr. apply Hlead.
        * intros x Hx. rewrite Hcr. destruct Hlead as [_ Hlead]. apply Hlead. apply (Hrow (blk := next)).
          -- rewrite E'. apply in_app_iff. simpl. auto.
          -- apply before_split. exists N1, N2. auto.
    - intros r. unfold rden.
      assert (E0 : lincomb l (vden rc c) Dm r = lincomb l (lincomb l (vden rc j) Dm) Dm r).
      { apply lincomb_ext; auto. intros x _. now rewrite (vden_vcol _ Hvc), Hcr. }
      rewrite E0, <- lincomb_assoc. apply lincomb_0. intros x Hx.
      destruct (fscalar_dec (vden rc j x)) as [|Hn]; auto. right.
      rewrite (vden_vcol _ Hv) in Hn. apply coef_in in Hn. destruct Hn as [k Hk].
      destruct (Hnext _ _ _ _ E x (Hin _ _ Hk)) as [Hr Hz]. rewrite <- (Hz r). symmetry.
      symmetry. apply lincomb_incl; auto.
      + eapply block_nodup; exact E'.
      + eapply block_incl; exact E'.
      + intros y _ Hy. destruct (fscalar_dec (Dm x y)) as [|Hn]; auto. exfalso. apply Hy. eapply dm_next; eauto.
    - intros x. rewrite (vden_vcol _ Hvc). auto.
  Qed.

  Lemma clear_step_spec fuel pre blk post P c P2 bd low sub :
    blocks = pre ++ blk :: post -> blk = P ++ c :: P2 -> enumerates sub blk ->
    length (row_set (m_col D) l) < fuel ->
    ginv pre P bd -> low_inv P (bd_rc bd) low ->
    exists bd' low', clear_step HI fuel D sub (bd, low) (length P) = Ok (bd', low') /\
      ginv pre (P ++ [c]) bd' /\ low_inv (P ++ [c]) (bd_rc bd') low' /\ extends (bd_rc bd) (bd_rc bd').
  Proof.
    intros E Eb Hen Hfuel (G1 & G2 & G3 & G4 & G5 & (G6n & G6) & (G7n & G7)) HL. unfold clear_step.
    set (rc := bd_rc bd) in *. set (done := concat pre ++ P) in *.
    assert (Hblk : In blk blocks) by (rewrite E; apply in_app_iff; simpl; auto).
    assert (Ee : b_elem sub (length P) = Ok c).
    { apply Hen. rewrite Eb, nth_error_app2, Nat.sub_diag; auto. }
    rewrite Ee. cbn [bind].
    assert (Hcb : In c blk) by (rewrite Eb; apply in_app_iff; simpl; auto).
    assert (Hcl : In c l) by (eapply block_incl; eauto).
    assert (Hcd : ~ In c done) by (eapply cur_not_done; eauto).
    assert (HPb : incl P blk) by (rewrite Eb; intros x Hx; apply in_app_iff; auto).
    assert (Hdone' : concat pre ++ (P ++ [c]) = done ++ [c]) by (unfold done; now rewrite app_assoc).
    assert (HdoneV : forall j, In j done -> exists bk lv, In bk blocks /\ In j bk /\ vcol rc j lv /\ col_ok bk j lv).
    { intros j Hj. assert (Hjl : In j l) by (eapply done_incl; eauto). apply in_concat in Hjl. destruct Hjl as (bk & Hbk & Hjb).
      destruct (G1 bk j Hbk Hjb Hj) as (lv & H1 & H2). eauto 8. }
    assert (Hpre_rows : forall j r, In j (concat pre) -> rden rc j r <> f0 -> In r (concat pre ++ blk)).
    { intros j r Hj Hn. pose proof Hj as Hj'. apply in_concat in Hj'. destruct Hj' as (bk & Hbk & Hjb).
      assert (Hbk' : In bk blocks) by (rewrite E; apply in_app_iff; auto).
      destruct (G1 bk j Hbk' Hjb) as (lv & H1 & H2); [unfold done; apply in_app_iff; auto|].
      destruct (rden_row _ H1 H2 Hn) as (x & Hx & Hn'). eapply row_old with (c := x); eauto. apply in_concat. eauto. }
    assert (HP_rows : forall j r, In j P -> rden rc j r <> f0 -> ~ In r (concat pre ++ blk)).
    { intros j r Hj Hn. destruct (G1 blk j Hblk (HPb _ Hj)) as (lv & H1 & H2); [unfold done; apply in_app_iff; auto|].
      destruct (rden_row _ H1 H2 Hn) as (x & Hx & Hn'). eapply row_fresh with (c := x); eauto. }
    destruct (map_mem c rc) eqn:Em.
    - (* skipped: cleared by an earlier column *)
      exists bd, low. split; [reflexivity|]. fold rc.
      unfold map_mem in Em. destruct (map_get c rc) as [[j|t]|] eqn:Eg; [|exfalso; apply Hcd; apply (G4 _ _ Eg)|discriminate]. clear Em.
      pose proof Eg as Eg'. apply G2 in Eg'. destruct Eg' as [Hj Hlead]. destruct (G3 _ _ Eg) as (t & Et).
      assert (Hjp : In j (concat pre)).
      { unfold done in Hj. apply in_app_iff in Hj. destruct Hj as [|Hj]; auto. exfalso.
        apply (HP_rows j c Hj); [apply Hlead|]. apply in_app_iff; auto. }
      apply in_concat in Hjp. destruct Hjp as (bk & Hbk & Hjb).
      assert (Hbk' : In bk blocks) by (rewrite E; apply in_app_iff; auto).
      destruct (G1 bk j Hbk' Hjb Hj) as (lvj & Hvj & Hokj).
      assert (Esplit : exists p1, blocks = p1 ++ bk :: blk :: post).
      { apply in_split in Hbk. destruct Hbk as (p1 & p2 & Epre). destruct p2 as [|nx p2].
        - exists p1. rewrite E, Epre, <- app_assoc. reflexivity.
        - exfalso. destruct (rden_row c Hvj Hokj) as (x & Hx & Hn); [apply Hlead|].
          assert (E1 : blocks = p1 ++ bk :: nx :: p2 ++ blk :: post) by (rewrite E, Epre, <- app_assoc; reflexivity).
          pose proof (@dm_next _ _ _ _ _ _ E1 Hx Hn) as Hcn.
          apply Hcd. unfold done. apply in_app_iff. left. rewrite Epre, concat_app. simpl. rewrite !in_app_iff. auto. }
      destruct Esplit as (p1 & E1).
      destruct (@cleared_col rc p1 bk blk post c j t E1 Eg Et) as (lv & Hv & Hok & Hz & _); auto.
      { intros lv' Hv'. assert (lv' = lvj) by (apply vcol_crm in Hv', Hvj; congruence). now subst. }
      assert (Hnl : forall i, ~ leading phi (rden rc c) i) by (intros i Hi; eapply leading_not_zero; eauto).
      split; [|split; [|intros x e; auto]].
      + unfold ginv. fold rc. rewrite Hdone'. refine (conj _ (conj _ (conj _ (conj _ (conj _ (conj (conj _ _) (conj _ _))))))); auto.
        * intros bk' x Hb' Hx Hd. apply in_app_iff in Hd. destruct Hd as [Hd|[<-|[]]]; auto.
          rewrite (block_unique _ _ _ Hb' Hblk Hx Hcb). eauto.
        * intros x j'. rewrite G2, in_app_iff. simpl. split; [tauto|]. intros [[H|[<-|[]]] H']; auto. exfalso. eapply Hnl; eauto.
        * intros x t' H. destruct (G4 _ _ H) as [H1 H2]. split; auto. apply in_app_iff. auto.
        * intros x Hx. apply in_app_iff in Hx. destruct Hx as [Hx|[<-|[]]]; auto. congruence.
        * intros i j'. rewrite G6, in_app_iff. simpl. split; [tauto|]. intros [[H|[<-|[]]] H']; auto. exfalso. eapply Hnl; eauto.
        * intros x. rewrite G7, in_app_iff. simpl. split.
          -- intros (H1 & H2 & H3). split; auto. split; auto. intros j' Hj'. apply in_app_iff in Hj'. destruct Hj' as [Hj'|[<-|[]]]; auto.
          -- intros ([H1|[<-|[]]] & H2 & H3).
             ++ split; auto. split; auto. intros j' Hj'. apply H3. apply in_app_iff; auto.
             ++ exfalso. apply (H3 j); auto. apply in_app_iff; auto.
      + intros i j' k. rewrite (HL i j' k), in_app_iff. simpl. split; [tauto|]. intros ([H|[<-|[]]] & H'); auto. exfalso. eapply Hnl, H'.
    - (* reduced *)
      assert (Hcn : map_get c rc = None) by (unfold map_mem in Em; destruct (map_get c rc); [discriminate|auto]).
      destruct (build_bhcol_spec HI (HD _ Hcl)) as (r0 & E0 & Wr0 & Dr0). rewrite E0. cbn [bind].
      rewrite reduce_column_gen.
      assert (HPV : forall j, In j P -> exists lv, vcol rc j lv /\ col_ok blk j lv).
      { intros j Hj. apply G1; auto. unfold done. apply in_app_iff; auto. }
      assert (Hvsup : forall j x, In j P -> vden rc j x <> f0 -> In x P).
      { intros j x Hj Hn. destruct (HPV j Hj) as (lv & Hv & Hin & He). rewrite (vden_vcol _ Hv) in Hn.
        pose proof Hn as Hn'. apply coef_in in Hn'. destruct Hn' as [k Hk]. apply Hin in Hk.
        apply in_split in Hj. destruct Hj as (Q1 & Q2 & EP).
        destruct (@ends_at_unique_split K C blk (coef lv) j Q1 (Q2 ++ c :: P2)) with (c := x) as [->|H]; auto.
        - eapply block_nodup; eauto.
        - rewrite Eb, EP, <- app_assoc. reflexivity.
        - rewrite EP. apply in_app_iff; simpl; auto.
        - rewrite EP. apply in_app_iff; auto. }
      destruct (@gen_loop_spec HI K C F phi (m_colf (product_f (by_ref D) (crm_column (m_col D) rc)))
          (m_colf (with_trivial_filtration (crm_column (m_col D) rc))) low (row_set (m_col D) l) (rden rc) (vden rc))
        with (fuel := fuel) (r_i := r0) (v_i := empty_bhcol HI unit_ord C K) (S' := row_set (m_col D) l)
        as (r' & v' & -> & steps & Q1 & Q2 & Q3 & Q4 & Q5 & Q6 & Q7); auto.
      { intros i j k Hg. apply HL in Hg. destruct Hg as (Hj & Hlead & Hk).
        destruct (HPV j Hj) as (lv & Hv & Hok). destruct (@fetch_clr rc pre blk post j lv E Hv Hok) as [F1 F2].
        refine (conj Hlead (conj Hk (conj _ (conj F1 F2)))). intros r. apply lincomb_row_set. }
      { apply wfc_empty. }
      { intros r Hr. rewrite Dr0 in Hr. eapply mden_row_set; eauto. }
      { intros r Hr. exact Hr. }
      cbn [bind]. unfold save_column. fold rc.
      assert (Hsteps : forall m j, In (m, j) steps -> In j P).
      { intros m j Hin. destruct (Q1 m j Hin) as (i & k & Hg & _). apply HL in Hg. tauto. }
      destruct (drain_sorted_spec Q5) as (es & v2 & Edr & _ & We & De & Ce & Ne).
      set (lv := map e_term es).
      assert (Hlv : forall x, coef (lv ++ [(k_one, c)]) x = fadd (den v' x) (if oeqb c x then f1 else f0)).
      { intros x. rewrite coef_app. unfold lv. rewrite Ce. simpl. destruct (oeqb c x); auto. }
      assert (Hdv : forall x, den v' x <> f0 -> In x P).
      { intros x Hx. destruct (in_dec ord_eq_dec x P) as [|Hn]; auto. exfalso. apply Hx.
        rewrite Q3, den_empty, vsum_0; [ring|]. intros [m j] Hin. simpl. apply Hsteps in Hin.
        destruct (fscalar_dec (vden rc j x)) as [->|Hn']; [ring|]. exfalso. eauto. }
      assert (Hok : col_ok blk c (lv ++ [(k_one, c)])).
      { split.
        - intros k x Hin. apply in_app_iff in Hin. destruct Hin as [Hin|[[= <- <-]|[]]]; auto.
          apply HPb, Hdv. unfold lv in Hin. apply in_map_iff in Hin. destruct Hin as (e & [= <- <-] & He). rewrite (Ne e He). discriminate.
        - exists P, P2. split; auto. rewrite Hlv, oeqb_refl. split.
          + destruct (fscalar_dec (den v' c)) as [->|Hn]; [|exfalso; apply Hcd; unfold done; apply in_app_iff; auto].
            replace (fadd (@f0 K) f1) with (@f1 K) by ring. discriminate.
          + intros x Hx. rewrite Hlv.
            assert (Hnd : NoDup blk) by (eapply block_nodup; eauto). rewrite Eb in Hnd.
            assert (c <> x). { intros <-. apply NoDup_remove_2 in Hnd. apply Hnd, in_app_iff; auto. }
            apply oeqb_neq in H. rewrite H. destruct (fscalar_dec (den v' x)) as [->|Hn]; [ring|].
            exfalso. apply Hdv in Hn. eapply NoDup_app_disj; eauto. simpl; auto. }
      assert (Hrv : forall r, den r' r = lincomb l (coef (lv ++ [(k_one, c)])) Dm r).
      { intros r. rewrite Q2, Dr0.
        transitivity (lincomb l (fun x => fadd (if oeqb c x then f1 else f0)
                        (vsum steps (fun p => fmul (Some (fst p)) (vden rc (snd p) x)))) Dm r).
        - rewrite lincomb_add, lincomb_unit by auto. f_equal.
          unfold rden. symmetry. unfold lincomb.
          transitivity (vsum l (fun x => vsum steps (fun p => fmul (fmul (Some (fst p)) (vden rc (snd p) x)) (Dm x r)))).
          + apply vsum_ext. intros x _. destruct (F_ring K). rewrite Rmul_comm, <- vsum_mul_l.
            apply vsum_ext. intros p _. rewrite Rmul_comm. reflexivity.
          + rewrite vsum_swap. apply vsum_ext. intros p _. rewrite <- vsum_mul_l. apply vsum_ext.
            intros x _. destruct (F_ring K). now rewrite Rmul_assoc.
        - apply lincomb_ext; auto. intros x _. rewrite Hlv, Q3, den_empty. ring. }
      assert (Hfresh : forall r, den r' r <> f0 -> ~ In r (concat pre ++ blk)).
      { intros r Hr. rewrite Hrv in Hr. apply lincomb_nonzero in Hr. destruct Hr as (x & _ & Hx & Hn).
        apply coef_in in Hx. destruct Hx as [k Hk]. apply (proj1 Hok) in Hk. eapply row_fresh with (c := x); eauto. }
      assert (Hfnone : forall r, den r' r <> f0 -> map_get r low = None -> map_get r rc = None).
      { intros r Hr Hlo. specialize (Hfresh r Hr). destruct (map_get r rc) as [[j|t]|] eqn:Eg; auto; exfalso.
        - pose proof Eg as Eg'. apply G2 in Eg'. destruct Eg' as [Hj Hlead]. unfold done in Hj. apply in_app_iff in Hj.
          destruct Hj as [Hj|Hj]; [apply Hfresh; eapply Hpre_rows; eauto; apply Hlead|].
          assert (exists a, rden rc j r = Some a) as [a Ha].
          { destruct Hlead as [H1 _]. destruct (rden rc j r) eqn:Er; eauto. now destruct H1. }
          assert (map_get r low = Some (j, a)) by (apply HL; auto). congruence.
        - apply Hfresh. apply G4 in Eg. destruct Eg as [Eg _]. unfold done in Eg. apply in_app_iff in Eg. apply in_app_iff. destruct Eg; auto. }
      (* the new table *)
      set (rc1 := match peek_pivot r' with Some p => map_insert (e_row p) (Cleared c) rc | None => rc end).
      set (rcn := map_insert c (Reduced lv) rc1).
      set (dg := match peek_pivot r' with
        | Some p => Diagram (essential (bd_dgm bd)) (@set_insert (pair_ord C C) (e_row p, c) (pairings (bd_dgm bd)))
        | None => Diagram (set_insert c (essential (bd_dgm bd))) (pairings (bd_dgm bd)) end).
      set (lown := match peek_pivot r' with Some p => map_insert (e_row p) (c, e_coeff p) low | None => low end).
      exists (Builder dg rcn), lown. split.
      { rewrite Edr. unfold dg, rcn, rc1, lown. destruct (peek_pivot r'); reflexivity. }
      cbn [bd_rc].
      assert (Hpk : forall p, peek_pivot r' = Some p -> leading phi (den r') (e_row p) /\ den r' (e_row p) = Some (e_coeff p) /\
                 map_get (e_row p) low = None /\ map_get (e_row p) rc = None /\ e_row p <> c /\ ~ In (e_row p) done).
      { intros p Hp. destruct Q7 as [[_ H]|(p' & Hp' & _ & H1 & H2 & H3)]; [congruence|]. rewrite Hp in Hp'. injection Hp' as <-.
        assert (Hn : den r' (e_row p) <> f0) by apply H1. refine (conj H1 (conj H2 (conj H3 (conj (Hfnone _ Hn H3) (conj _ _))))).
        - intros Epc. apply (Hfresh _ Hn). rewrite Epc. apply in_app_iff; auto.
        - intros Hd. apply (Hfresh _ Hn). unfold done in Hd. apply in_app_iff in Hd. apply in_app_iff. destruct Hd; auto. }
      assert (Hpn : peek_pivot r' = None -> vzero (den r')).
      { intros Hp. destruct Q7 as [[H _]|(p' & Hp' & _)]; [auto|congruence]. }
      assert (Hc1 : map_get c rc1 = None).
      { unfold rc1. destruct (peek_pivot r') as [p|]; auto. destruct (Hpk p eq_refl) as (_ & _ & _ & _ & Hne & _). rewrite map_get_insert_neq; auto. }
      assert (Hext : extends rc rcn).
      { eapply extends_trans with (b := rc1); [|unfold rcn; apply extends_insert; auto]. unfold rc1.
        destruct (peek_pivot r') as [p|]; [apply extends_insert; apply (Hpk p eq_refl)|intros ? ? ?; auto]. }
      assert (Hvn : vcol rcn c (lv ++ [(k_one, c)])) by (left; exists lv; split; auto; unfold rcn; apply map_get_insert_eq).
      assert (Hrn : forall r, rden rcn c r = den r' r).
      { intros r. rewrite Hrv. apply lincomb_ext; auto. intros x _. now rewrite (vden_vcol _ Hvn). }
      assert (Hro : forall j, In j done -> forall r, rden rcn j r = rden rc j r).
      { intros j Hj r. destruct (HdoneV j Hj) as (bk & lj & _ & _ & Hv & _). eapply rden_extends; eauto. }
      assert (Hlo : forall j i, In j done -> (leading phi (rden rcn j) i <-> leading phi (rden rc j) i)).
      { intros j i Hj. split; apply leading_ext; intros r; rewrite Hro; auto. }
      assert (Hln : forall i, leading phi (rden rcn c) i <-> exists p, peek_pivot r' = Some p /\ e_row p = i).
      { intros i. split.
        - intros Hi. destruct (peek_pivot r') as [p|] eqn:Ep.
          + exists p. split; auto. destruct (Hpk p eq_refl) as (H1 & _). eapply leading_unique; [exact H1|].
            eapply leading_ext; [|exact Hi]. auto.
          + exfalso. eapply leading_not_zero; [exact Hi|]. intros r. rewrite Hrn. now apply Hpn.
        - intros (p & Ep & <-). destruct (Hpk p Ep) as (H1 & _). eapply leading_ext; [|exact H1]. auto. }
      assert (Hgn : forall x, map_get x rcn = if oeqb c x then Some (Reduced lv) else
                 match peek_pivot r' with Some p => if oeqb (e_row p) x then Some (Cleared c) else map_get x rc | None => map_get x rc end).
      { intros x. unfold rcn. rewrite map_get_insert. destruct (oeqb c x); auto. unfold rc1. destruct (peek_pivot r'); auto. apply map_get_insert. }
      assert (Hleadc : forall j, In j done -> ~ leading phi (rden rc j) c).
      { intros j Hj H. assert (map_get c rc = Some (Cleared j)) by (apply G2; auto). congruence. }
      assert (Hleadp : forall p j, peek_pivot r' = Some p -> In j done -> ~ leading phi (rden rc j) (e_row p)).
      { intros p j Hp Hj H. assert (map_get (e_row p) rc = Some (Cleared j)) by (apply G2; auto). destruct (Hpk p Hp) as (_ & _ & _ & H3 & _). congruence. }
      split; [|split; [|exact Hext]].
      + unfold ginv. cbn [bd_rc bd_dgm]. rewrite Hdone'.
        refine (conj _ (conj _ (conj _ (conj _ (conj _ (conj (conj _ _) (conj _ _))))))).
        * intros bk x Hbk Hx Hd. apply in_app_iff in Hd. destruct Hd as [Hd|[<-|[]]].
          -- destruct (G1 bk x Hbk Hx Hd) as (lx & H1 & H2). exists lx. split; auto. eapply vcol_extends; eauto.
          -- rewrite (block_unique _ _ _ Hbk Hblk Hx Hcb). eauto.
        * intros x j. rewrite Hgn, in_app_iff. simpl. destruct (oeqb_spec c x) as [<-|Hcx].
          -- split; [discriminate|]. intros [[Hj|[<-|[]]] Hlead]; exfalso.
             ++ apply Hlo in Hlead; auto. eapply Hleadc; eauto.
             ++ apply Hln in Hlead. destruct Hlead as (p & Hp & Hpc). destruct (Hpk p Hp) as (_ & _ & _ & _ & Hne & _). auto.
          -- destruct (peek_pivot r') as [p|] eqn:Ep.
             ++ destruct (oeqb_spec (e_row p) x) as [<-|Hpx].
                ** split.
                   --- intros [= <-]. split; auto. apply Hln. eauto.
                   --- intros [[Hj|[<-|[]]] Hlead]; auto. exfalso. apply Hlo in Hlead; auto. eapply Hleadp; eauto.
                ** rewrite G2. split.
                   --- intros [Hj Hlead]. split; auto. apply Hlo; auto.
                   --- intros [[Hj|[<-|[]]] Hlead]; [split; auto; apply Hlo; auto|]. exfalso. apply Hln in Hlead.
                       destruct Hlead as (p' & [= <-] & Hp'). auto.
             ++ rewrite G2. split.
                ** intros [Hj Hlead]. split; auto. apply Hlo; auto.
                ** intros [[Hj|[<-|[]]] Hlead]; [split; auto; apply Hlo; auto|]. exfalso. apply Hln in Hlead.
                   destruct Hlead as (p' & [=] & _).
        * intros x j. rewrite Hgn. destruct (oeqb_spec c x) as [<-|Hcx]; [discriminate|].
          assert (Hold : map_get x rc = Some (Cleared j) -> exists t, map_get j rcn = Some (Reduced t)).
          { intros H. destruct (G3 _ _ H) as (t & Ht). exists t. apply Hext; auto. }
          assert (Hnew : exists t, map_get c rcn = Some (Reduced t)) by (exists lv; unfold rcn; apply map_get_insert_eq).
          destruct (peek_pivot r') as [p|]; auto. destruct (oeqb (e_row p) x); auto. intros [= <-]. auto.
        * intros x t. rewrite Hgn, in_app_iff. simpl. destruct (oeqb_spec c x) as [<-|Hcx].
          -- intros [= <-]. split; auto. split; [|apply desc_triv_sorted; exact De]. unfold lv. rewrite Ce.
             destruct (fscalar_dec (den v' c)) as [|Hn]; auto. exfalso. apply Hcd. unfold done. apply in_app_iff. auto.
          -- assert (HG : map_get x rc = Some (Reduced t) -> (In x done \/ c = x \/ False) /\ coef t x = f0 /\ StronglySorted (fun x y => olt y x) (map snd t)).
             { intros H. destruct (G4 _ _ H) as [H1 H2]. auto. }
             destruct (peek_pivot r') as [p|]; auto. destruct (oeqb (e_row p) x); auto. discriminate.
        * intros x Hx. apply in_app_iff in Hx. destruct Hx as [Hx|[<-|[]]].
          -- apply G5 in Hx. destruct (map_get x rc) as [e|] eqn:Ex; [|congruence]. rewrite (Hext _ _ Ex). discriminate.
          -- unfold rcn. rewrite map_get_insert_eq. discriminate.
        * unfold dg. destruct (peek_pivot r') as [p|]; simpl; auto. apply (@nodup_set_insert (pair_ord C C)). auto.
        * intros i j. rewrite in_app_iff. simpl.
          assert (HH : In (i, j) (pairings dg) <-> In (i, j) (pairings (bd_dgm bd)) \/ exists p, peek_pivot r' = Some p /\ e_row p = i /\ j = c).
          { unfold dg. destruct (peek_pivot r') as [p|]; simpl.
            - rewrite (@in_set_insert (pair_ord C C)). split.
              + intros [H|H]; [right; injection H as -> ->; eauto|auto].
              + intros [H|(p' & [= <-] & <- & ->)]; auto.
            - split; auto. intros [H|(p' & [=] & _)]; auto. }
          rewrite HH, G6. split.
          -- intros [[Hj Hlead]|(p & Hp & <- & ->)].
             ++ split; auto. apply Hlo; auto.
             ++ split; auto. apply Hln. eauto.
          -- intros [[Hj|[<-|[]]] Hlead].
             ++ left. split; auto. apply Hlo; auto.
             ++ right. apply Hln in Hlead. destruct Hlead as (p & Hp & Hi). eauto.
        * unfold dg. destruct (peek_pivot r') as [p|]; simpl; auto. apply nodup_set_insert. auto.
        * intros x. rewrite in_app_iff. simpl.
          assert (HH : In x (essential dg) <-> In x (essential (bd_dgm bd)) \/ (peek_pivot r' = None /\ x = c)).
          { unfold dg. destruct (peek_pivot r') as [p|]; simpl.
            - split; auto. intros [H|([=] & _)]; auto.
            - rewrite in_set_insert. split; [intros [->|H]; auto|intros [H|[_ ->]]; auto]. }
          rewrite HH, G7. split.
          -- intros [(H1 & H2 & H3)|(Hp & ->)].
             ++ split; auto. split; [intros r; rewrite Hro; auto|]. intros j Hj. apply in_app_iff in Hj. destruct Hj as [Hj|[<-|[]]].
                ** rewrite Hlo; auto.
                ** intros Hlead. apply Hln in Hlead. destruct Hlead as (p & Hp & <-). destruct (Hpk p Hp) as (_ & _ & _ & _ & _ & Hnd). auto.
             ++ split; auto. split; [intros r; rewrite Hrn; now apply Hpn|]. intros j Hj. apply in_app_iff in Hj. destruct Hj as [Hj|[<-|[]]].
                ** rewrite Hlo; auto.
                ** intros Hlead. apply Hln in Hlead. destruct Hlead as (p & Hp' & _). congruence.
          -- intros ([H1|[<-|[]]] & H2 & H3).
             ++ left. split; auto. split; [intros r; rewrite <- Hro; auto|]. intros j Hj Hlead. apply (H3 j); [apply in_app_iff; auto|]. apply Hlo; auto.
             ++ right. split; auto. destruct (peek_pivot r') as [p|] eqn:Ep; auto. exfalso.
                destruct (Hpk p eq_refl) as ([Hn _] & _). apply Hn. rewrite <- Hrn. apply H2.
      + intros i j k. rewrite in_app_iff. simpl.
        assert (HPd : forall j, In j P -> In j done) by (intros; unfold done; apply in_app_iff; auto).
        assert (HPnc : ~ In c P) by (intros H; apply Hcd; auto).
        unfold lown. destruct (peek_pivot r') as [p|] eqn:Ep.
        * destruct (Hpk p eq_refl) as (P1 & P2' & P3 & _ & _). rewrite map_get_insert. destruct (oeqb_spec (e_row p) i) as [<-|Hi].
          -- split.
             ++ intros [= <- <-]. split; auto. split; [apply Hln; eauto|]. now rewrite Hrn.
             ++ intros ([Hj|[<-|[]]] & H2 & H3).
                ** exfalso. eapply Hleadp; eauto. apply Hlo; auto.
                ** rewrite Hrn in H3. congruence.
          -- rewrite (HL i j k). split.
             ++ intros (Hj & H2 & H3). split; auto. split; [apply Hlo; auto|]. rewrite Hro; auto.
             ++ intros ([Hj|[<-|[]]] & H2 & H3).
                ** split; auto. split; [apply Hlo; auto|]. rewrite <- Hro; auto.
                ** exfalso. apply Hln in H2. destruct H2 as (p' & [= <-] & H2). auto.
        * rewrite (HL i j k). split.
          -- intros (Hj & H2 & H3). split; auto. split; [apply Hlo; auto|]. rewrite Hro; auto.
          -- intros ([Hj|[<-|[]]] & H2 & H3).
             ++ split; auto. split; [apply Hlo; auto|]. rewrite <- Hro; auto.
             ++ exfalso. apply Hln in H2. destruct H2 as (p' & [=] & _).
  Qed.

  Lemma clear_fold_spec fuel pre blk post sub P2 : blocks = pre ++ blk :: post -> enumerates sub blk ->
    length (row_set (m_col D) l) < fuel ->
    forall P bd low, blk = P ++ P2 -> ginv pre P bd -> low_inv P (bd_rc bd) low ->
    exists bd' low', foldM (clear_step HI fuel D sub) (seq (length P) (length P2)) (bd, low) = Ok (bd', low') /\ ginv pre blk bd'.
  Proof.
    intros E Hen Hf. induction P2 as [|c P2 IH]; intros P bd low Eb Hg HL; cbn [length seq foldM].
    - rewrite app_nil_r in Eb. subst P. eauto.
    - destruct (@clear_step_spec fuel pre blk post P c P2 bd low sub E Eb Hen Hf Hg HL) as (bd1 & low1 & -> & Hg1 & HL1 & _). cbn [bind].
      destruct (IH (P ++ [c]) bd1 low1) as (bd' & low' & E' & H'); auto.
      + now rewrite <- app_assoc.
      + rewrite app_length in E'. simpl in E'. rewrite Nat.add_comm in E'. simpl in E'. eauto.
  Qed.

  Lemma ginv_done pre P pre' P' bd : concat pre ++ P = concat pre' ++ P' -> ginv pre P bd -> ginv pre' P' bd.
  Proof. unfold ginv. intros E H. rewrite <- E. exact H. Qed.

  Lemma dims_fold_spec fuel ds post : Forall2 (fun d blk => exists sub, sb_dim sb d = Ok sub /\ enumerates sub blk) ds post ->
    length (row_set (m_col D) l) < fuel ->
    forall pre bd, blocks = pre ++ post -> ginv pre [] bd ->
    exists bd', foldM (reduce_dimension HI fuel D sb) ds bd = Ok bd' /\ ginv blocks [] bd'.
  Proof.
    intros H2 Hf. induction H2 as [|d blk ds post (sub & Es & Hen) H2 IH]; intros pre bd E Hg; cbn [foldM].
    - rewrite app_nil_r in E. subst pre. eauto.
    - pose proof Hen as [Hsz Hel].
      destruct (@clear_fold_spec fuel pre blk post sub blk E Hen Hf [] bd []) as (bd1 & low1 & E1 & Hg1); auto.
      { intros i j k. simpl. split; [discriminate|tauto]. }
      assert (E2 : reduce_dimension HI fuel D sb bd d = Ok bd1).
      { unfold reduce_dimension. rewrite Es. cbn [bind]. rewrite Hsz.
        match goal with |- bind ?m ?f = _ => change (bind m f = bind (Ok (bd1, low1)) f); f_equal end. exact E1. }
      rewrite E2. cbn [bind]. apply (IH (pre ++ [blk])).
      + now rewrite <- app_assoc.
      + eapply ginv_done; [|exact Hg1]. rewrite concat_app. simpl. now rewrite !app_nil_r.
  Qed.

  Theorem build_spec fuel : length (row_set (m_col D) l) < fuel ->
    exists rc dg, build_with_diagram HI fuel D sb dims = Ok (rc, dg) /\ ginv blocks [] (Builder dg rc).
  Proof.
    intros Hf. unfold build_with_diagram.
    assert (H0 : ginv [] [] (Builder (Diagram [] []) [])).
    { unfold ginv. simpl. refine (conj _ (conj _ (conj _ (conj _ (conj _ (conj (conj _ _) (conj _ _))))))); simpl; try tauto; try constructor; try discriminate; try tauto. }
    destruct HB as (_ & H2 & _).
    destruct (@dims_fold_spec fuel dims blocks H2 Hf [] _ eq_refl H0) as ([dg rc] & -> & Hg). cbn [bind bd_rc bd_dgm]. eauto.
  Qed.

  (** *** consequences of the final invariant *)
  Section Final.
    Variables (rc : @rc_map K C) (dg : diagram C).
    Hypothesis Hg : ginv blocks [] (Builder dg rc).
    (** any listing of the basis that keeps the order inside each block *)
    Variable l' : list C.
    Hypothesis Hl' : NoDup l'.
    Hypothesis Hsame : forall c, In c l' <-> In c l.
    Hypothesis Hord : forall blk x y, In blk blocks -> before blk x y -> before l' x y.

    Lemma clr_cols blk c : In blk blocks -> In c blk -> exists lv, crm_column (m_col D) rc c = Ok lv /\
      (forall x, vden rc c x = coef lv x) /\ (forall k x, In (k, x) lv -> In x blk) /\ ends_at blk (coef lv) c.
    Proof.
      intros Hb Hc. destruct Hg as (G1 & _). destruct (G1 blk c Hb Hc) as (lv & Hv & H1 & H2).
      - rewrite app_nil_r. apply in_concat. eauto.
      - exists lv. split; [now apply vcol_crm|]. split; auto. intros x. now apply vden_vcol.
    Qed.

    Lemma lincomb_l' x r : lincomb l' x Dm r = lincomb l x Dm r.
    Proof.
      apply lincomb_incl; auto.
      - intros c. apply Hsame.
      - intros c Hc Hn. exfalso. apply Hn, Hsame. auto.
    Qed.

    Lemma clr_triangular : triangular l' (vden rc).
    Proof.
      intros c Hc. assert (Hc0 := Hc). apply Hsame in Hc. apply in_concat in Hc. destruct Hc as (blk & Hb & Hc).
      destruct (clr_cols _ _ Hb Hc) as (lv & _ & Hv & Hin & B1 & B2 & Eb & Hn & Hz).
      apply in_split in Hc0. destruct Hc0 as (A1 & A2 & EA). exists A1, A2. split; auto. rewrite Hv. split; auto.
      intros x Hx. rewrite Hv. destruct (fscalar_dec (coef lv x)) as [|Hnx]; auto. exfalso.
      pose proof Hnx as Hk. apply coef_in in Hk. destruct Hk as [k Hk]. apply Hin in Hk.
      assert (Hbx : before blk x c).
      { rewrite Eb in Hk |- *. apply in_app_iff in Hk. destruct Hk as [Hk|[<-|Hk]].
        - apply in_split in Hk. destruct Hk as (Q1 & Q2 & ->). exists Q1, Q2, B2. now rewrite <- app_assoc.
        - exfalso. rewrite EA in Hl'. apply NoDup_remove_2 in Hl'. apply Hl', in_app_iff; auto.
        - exfalso. apply Hnx. auto. }
      apply (Hord Hb) in Hbx. apply (before_asym Hl' Hbx). apply before_split. eauto.
    Qed.

    Lemma clr_reduced : reduced phi l' (fun j => lincomb l' (vden rc j) Dm).
    Proof.
      intros j k i Hj Hk H1 H2. destruct Hg as (_ & G2 & _).
      assert (Hd : forall j, In j l' -> In j (concat blocks ++ [])) by (intros x Hx; rewrite app_nil_r; apply Hsame; auto).
      assert (E1 : map_get i rc = Some (Cleared j)).
      { apply G2. split; auto. eapply leading_ext; [|exact H1]. intros r. apply lincomb_l'. }
      assert (E2 : map_get i rc = Some (Cleared k)).
      { apply G2. split; auto. eapply leading_ext; [|exact H2]. intros r. apply lincomb_l'. }
      congruence.
    Qed.

    Lemma clr_dich : dich phi (fun j => lincomb l' (vden rc j) Dm) l'.
    Proof. intros j _. apply lincomb_dich. Qed.

    Lemma clr_lead i j : In j l' -> (leading phi (rden rc j) i <-> is_pair phi l' Dm i j).
    Proof.
      intros Hj. rewrite <- (intrinsic_pair Hl' clr_triangular clr_reduced clr_dich) by auto.
      split; apply leading_ext; intros r; rewrite lincomb_l'; auto.
    Qed.
    Lemma clr_zero j : In j l' -> (vzero (rden rc j) <-> is_positive l' Dm j).
    Proof.
      intros Hj. rewrite <- (intrinsic_positive Hl' clr_triangular clr_reduced clr_dich) by auto.
      split; intros H r; specialize (H r); rewrite lincomb_l' in *; auto.
    Qed.

    Lemma clr_pairs : NoDup (pairings dg) /\ forall i j, In (i, j) (pairings dg) <-> In j l' /\ is_pair phi l' Dm i j.
    Proof.
      destruct Hg as (_ & _ & _ & _ & _ & (H1 & H2) & _). simpl in *. split; auto. intros i j. rewrite H2, app_nil_r.
      fold l. rewrite <- Hsame. split; intros [Hj H]; split; auto; apply clr_lead; auto.
    Qed.
    Lemma clr_essential : NoDup (essential dg) /\ forall c, In c (essential dg) <-> is_essential phi l' Dm c.
    Proof.
      destruct Hg as (_ & _ & _ & _ & _ & _ & (H1 & H2)). simpl in *. split; auto. intros c. rewrite H2, app_nil_r.
      fold l. unfold is_essential. rewrite <- Hsame. split; intros (H3 & H4 & H5); (split; [auto|split; [apply clr_zero; auto|]]).
      - intros k Hk Hp. apply (H5 k); [apply Hsame; auto|]. apply clr_lead; auto.
      - intros k Hk Hp. assert (Hk' : In k l') by (apply Hsame; auto). apply (H5 k Hk'). apply clr_lead; auto.
    Qed.

    (** the table entry of a basis element *)
    Lemma clr_entry c : In c l ->
      (exists t, map_get c rc = Some (Reduced t) /\ crm_column (m_col D) rc c = Ok (t ++ [(k_one, c)]) /\
         coef t c = f0 /\ StronglySorted (fun x y => olt y x) (map snd t)) \/
      (exists j, map_get c rc = Some (Cleared j) /\ In j l /\ leading phi (rden rc j) c /\ vzero (rden rc c) /\
         forall x, vden rc c x = rden rc j x).
    Proof.
      intros Hc. destruct Hg as (G1 & G2 & G3 & G4 & G5 & _). simpl in *.
      assert (Hc' : In c (concat blocks ++ [])) by now rewrite app_nil_r.
      destruct (map_get c rc) as [[j|t]|] eqn:Eg; [right|left|exfalso; apply (G5 c); auto].
      - exists j. split; auto. destruct (G3 _ _ Eg) as (t & Et). pose proof (proj1 (G2 _ _) Eg) as [Hj Hlead].
        assert (Hjl : In j l) by (rewrite app_nil_r in Hj; exact Hj). split; auto. split; auto.
        apply in_concat in Hjl. destruct Hjl as (bk & Hbk & Hjb). destruct (G1 bk j Hbk Hjb Hj) as (lvj & Hvj & Hokj).
        assert (HL : exists pre next post, blocks = pre ++ bk :: next :: post).
        { apply in_split in Hbk. destruct Hbk as (pre & post & E). destruct post as [|next post]; eauto. exfalso.
          destruct (rden_row c Hvj Hokj) as (x & Hx & Hn); [apply Hlead|]. apply (Hlast _ _ E x c Hx Hn). auto. }
        destruct HL as (pre & next & post & E).
        destruct (@cleared_col rc pre bk next post c j t E Eg Et) as (lv & Hv & Hok & Hz & He); auto.
        intros lv' Hv'. assert (lv' = lvj) by (apply vcol_crm in Hv', Hvj; congruence). now subst.
      - exists t. split; auto. split; [apply vcol_crm; left; eauto|]. apply (G4 _ _ Eg).
    Qed.

    Lemma clr_is_cycle c : In c l -> exists a, col_is_cycle HI D rc c = Ok a /\ (a = true <-> vzero (rden rc c)).
    Proof.
      intros Hc. unfold col_is_cycle. destruct (clr_entry _ Hc) as [(t & Eg & Ec & _)|(j & Eg & _ & _ & Hz & _)]; rewrite Eg; cbn [unwrap bind].
      - apply in_concat in Hc. destruct Hc as (bk & Hbk & Hcb).
        destruct Hg as (G1 & _). destruct (G1 bk c Hbk Hcb) as (lv & Hv & Hok); [rewrite app_nil_r; apply in_concat; eauto|].
        apply in_split in Hbk. destruct Hbk as (pre & post & E).
        destruct (@fetch_clr rc pre bk post c lv E Hv Hok) as ((es & Ees & Hwes & Hces) & _).
        unfold build_bhcol. rewrite Ees. cbn [bind].
        assert (Hw : wfc phi (add_entries (empty_bhcol HI F C K) es)) by (apply wfc_add_entries; auto; apply wfc_empty).
        destruct (pop_pivot_spec Hw) as (o & h' & -> & Hp). cbn [bind]. destruct Hp as [_ Hp].
        assert (Hden : forall r, den (add_entries (empty_bhcol HI F C K) es) r = rden rc c r).
        { intros r. rewrite den_add_entries, den_empty, Hces. ring. }
        destruct o as [p|]; eexists; (split; [reflexivity|]).
        + destruct Hp as (_ & _ & Hlead & _). split; [discriminate|]. intros Hz. exfalso. eapply leading_not_zero; [exact Hlead|].
          intros r. rewrite Hden. apply Hz.
        + destruct Hp as [Hz _]. split; auto. intros _ r. rewrite <- Hden. apply Hz.
      - exists true. tauto.
    Qed.
  End Final.
End Clr.
