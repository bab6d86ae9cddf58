(** [read_off_diagram]: what is listed, in either direction. *)
From Verif Require Import Base Fields Spec LinAlg Columns ColumnsFacts Matrices SpecMat MatricesFacts Reduction LoopProofs StandardProofs.
From Coq Require Import Ring Field Sorted.
Set Implicit Arguments.

Lemma before_split {C} (l : list C) x y : before l x y <-> exists A B, l = A ++ x :: B /\ In y B.
Proof.
  split.
  - intros (A & B & E & ->). exists A, (B ++ y :: E). split; auto. apply in_app_iff; simpl; auto.
  - intros (A & B & -> & H). apply in_split in H. destruct H as (B1 & B2 & ->). exists A, B1, B2. auto.
Qed.
Lemma before_in {C} (l : list C) x y : before l x y -> In x l /\ In y l.
Proof.
  intros (A & B & E & ->). split; apply in_app_iff; right; simpl; auto.
  right. apply in_app_iff; simpl; auto.
Qed.
Lemma before_rev {C} (l : list C) x y : before (rev l) x y <-> before l y x.
Proof.
  assert (H : forall (l : list C) x y, before l x y -> before (rev l) y x).
  { clear. intros l x y (A & B & E & ->). exists (rev E), (rev B), (rev A).
    rewrite rev_app_distr. simpl. rewrite rev_app_distr. simpl. rewrite <- !app_assoc. reflexivity. }
  split; [|apply H]. intros Hb. apply H in Hb. now rewrite rev_involutive in Hb.
Qed.
Lemma before_neq {C} (l : list C) x y : NoDup l -> before l x y -> x <> y.
Proof.
  intros Hnd (A & B & E & ->) ->. apply NoDup_remove_2 in Hnd. apply Hnd.
  rewrite !in_app_iff. simpl. auto.
Qed.
Lemma before_total {C : ordT} (l : list C) x y : In x l -> In y l -> x = y \/ before l x y \/ before l y x.
Proof.
  intros Hx Hy. apply in_split in Hx. destruct Hx as (A & B & ->).
  apply in_app_iff in Hy. destruct Hy as [Hy|[Hy|Hy]]; auto.
  - right. right. apply in_split in Hy. destruct Hy as (A1 & A2 & ->). exists A1, A2, B.
    rewrite <- app_assoc. reflexivity.
  - right. left. apply before_split. eauto.
Qed.
Lemma before_asym {C} (l : list C) x y : NoDup l -> before l x y -> before l y x -> False.
Proof.
  intros Hnd H1 H2. apply before_split in H1, H2. destruct H1 as (A & B & E1 & H1), H2 as (A' & B' & E2 & H2).
  pose proof Hnd as Hnd'. rewrite E1 in Hnd'. subst l.
  apply in_split in H1. destruct H1 as (B1 & B2 & ->).
  assert (E3 : (A ++ x :: B1) ++ y :: B2 = A' ++ y :: B') by (rewrite <- app_assoc; auto).
  replace (A ++ x :: B1 ++ y :: B2) with ((A ++ x :: B1) ++ y :: B2) in Hnd' by (rewrite <- app_assoc; auto).
  destruct (nodup_split_unique _ _ _ _ _ Hnd' E3) as [_ <-].
  rewrite <- app_assoc in Hnd'. apply NoDup_remove_2 in Hnd'. apply Hnd'.
  rewrite !in_app_iff. simpl. auto.
Qed.
Lemma before_trans {C : ordT} (l : list C) x y z : NoDup l -> before l x y -> before l y z -> before l x z.
Proof.
  intros Hnd H1 H2. apply before_split in H1, H2. destruct H1 as (A & B & -> & H1), H2 as (A' & B' & E2 & H2).
  apply before_split. exists A, B. split; auto.
  apply in_split in H1. destruct H1 as (B1 & B2 & ->).
  replace (A ++ x :: B1 ++ y :: B2) with ((A ++ x :: B1) ++ y :: B2) in E2, Hnd by (rewrite <- app_assoc; auto).
  destruct (nodup_split_unique _ _ _ _ _ Hnd E2) as [_ <-]. apply in_app_iff. simpl; auto.
Qed.

Section ReadOff.
  Variable HI : heaps.
  Context {K : coeffT} {C F : ordT}.
  Add Field KFRO : (F_field K).
  Variables (phi : C -> F) (D : fmatrix K C C F) (b : basis C) (l : list C).
  Hypothesis Hl : NoDup l.
  Hypothesis Hb : enumerates b l.
  Hypothesis HD : forall c, In c l -> coherent_at phi D c.
  Variable v : @v_map K C.
  Hypothesis Hv : forall c, In c l -> exists lv, map_get c v = Some lv /\ forall k x, In (k, x) lv -> In x l.

  Let R := rd D l v.
  Let r := product_f (by_ref D) (mapvec_column v).

  Lemma read_off_step_spec dg i c : nth_error l i = Some c ->
    exists dg', read_off_step HI r b dg i = Ok dg' /\
     ((vzero (R c) /\ dg' = Diagram (set_insert c (essential dg)) (pairings dg)) \/
      exists x, leading phi (R c) x /\
        dg' = Diagram (set_remove x (essential dg)) (@set_insert (pair_ord C C) (x, c) (pairings dg))).
  Proof.
    intros Hn. assert (Hc : In c l) by (eapply nth_error_In; eauto).
    destruct (Hv c Hc) as (lv & Hg & Hin).
    unfold read_off_step. destruct Hb as [_ Hel]. rewrite (Hel _ _ Hn). cbn [bind].
    assert (Ec : mapvec_column v c = Ok lv) by (unfold mapvec_column; now rewrite Hg).
    destruct (@product_f_ok K C C C F phi (by_ref D) (mapvec_column v) c lv Ec) as (es & E1 & E2 & E3).
    { intros k x Hx. apply coherent_by_ref. eauto. }
    unfold build_bhcol. fold r in E1. rewrite E1. cbn [bind].
    set (h := add_entries (empty_bhcol HI F C K) es).
    assert (Wh : wfc phi h) by (apply wfc_add_entries; auto; apply wfc_empty).
    assert (Dh : forall x, den h x = R c x).
    { intros x. unfold h. rewrite den_add_entries, den_empty, E3.
      change (m_col (by_ref D)) with (m_col D). unfold R, rd, vd, stored.
      rewrite (@coef_combine K C C lv (mden (m_col D)) l x); eauto.
      rewrite fadd_0_r. apply lincomb_ext; auto. intros y _. now rewrite (mden_ok _ _ _ Ec). }
    destruct (pop_pivot_spec Wh) as (o & h1 & -> & Hp). cbn [bind].
    destruct Hp as [W1 Hp]. destruct (pop_pivot_spec W1) as (o2 & h2 & -> & _). cbn [bind].
    destruct o as [p|].
    - eexists. split; [reflexivity|]. right. exists (e_row p). split; auto.
      destruct Hp as (_ & _ & Hlead & _). eapply leading_ext; eauto.
    - eexists. split; [reflexivity|]. left. split; auto. intros x. rewrite <- Dh. apply Hp.
  Qed.

  (** the diagram read off after visiting the elements of [T] in order *)
  Definition read_inv (T : list C) (dg : diagram C) : Prop :=
    NoDup (essential dg) /\ NoDup (pairings dg) /\
    (forall i c, In (i, c) (pairings dg) <-> In c T /\ leading phi (R c) i) /\
    (forall c, In c (essential dg) <->
       exists A B, T = A ++ c :: B /\ vzero (R c) /\ forall c', In c' B -> ~ leading phi (R c') c).

  Lemma read_inv_step T c dg dg' : ~ In c T -> read_inv T dg ->
     ((vzero (R c) /\ dg' = Diagram (set_insert c (essential dg)) (pairings dg)) \/
      exists x, leading phi (R c) x /\
        dg' = Diagram (set_remove x (essential dg)) (@set_insert (pair_ord C C) (x, c) (pairings dg))) ->
    read_inv (T ++ [c]) dg'.
  Proof.
    intros HcT (N1 & N2 & Hp & He) [[Hz ->]|(x & Hx & ->)]; (split; [|split; [|split]]); cbn [essential pairings].
    - now apply nodup_set_insert.
    - assumption.
    - intros i d. rewrite Hp, in_app_iff. simpl. split; [tauto|]. intros [[Hd|[<-|[]]] Hlead]; auto.
      exfalso. eapply leading_not_zero; eauto.
    - intros d. rewrite in_set_insert, He. split.
      + intros [->|(A & B & -> & Hzd & Hn)].
        * exists T, []. split; auto.
        * exists A, (B ++ [c]). rewrite <- app_assoc. split; auto. split; auto.
          intros c' Hc'. apply in_app_iff in Hc'. destruct Hc' as [Hc'|[<-|[]]]; auto.
          intros Hlead. eapply leading_not_zero; eauto.
      + intros (A & B & E & Hzd & Hn).
        destruct (exists_last (l := d :: B)) as (B' & y & EB); [discriminate|].
        rewrite EB, app_assoc in E. apply app_inj_tail in E. destruct E as [-> ->].
        destruct B' as [|d' B'].
        * simpl in EB. injection EB as -> ->. auto.
        * simpl in EB. injection EB as <- EB. right. exists A, B'. split; auto. split; auto.
          intros c' Hc'. apply Hn. rewrite EB. apply in_app_iff; auto.
    - now apply nodup_set_remove.
    - now apply (@nodup_set_insert (pair_ord C C)).
    - intros i d. rewrite (@in_set_insert (pair_ord C C)), Hp, in_app_iff. simpl. split.
      + intros [[= -> ->]|[Hd Hlead]]; auto.
      + intros [[Hd|[<-|[]]] Hlead]; auto. left. f_equal. eapply leading_unique; eauto.
    - intros d. rewrite in_set_remove, He. split.
      + intros [Hd (A & B & -> & Hzd & Hn)]. exists A, (B ++ [c]). rewrite <- app_assoc. split; auto. split; auto.
        intros c' Hc'. apply in_app_iff in Hc'. destruct Hc' as [Hc'|[<-|[]]]; auto.
        intros Hlead. apply Hd. eapply leading_unique; eauto.
      + intros (A & B & E & Hzd & Hn).
        destruct (exists_last (l := d :: B)) as (B' & y & EB); [discriminate|].
        rewrite EB, app_assoc in E. apply app_inj_tail in E. destruct E as [-> <-].
        destruct B' as [|d' B'].
        * simpl in EB. injection EB as -> ->. exfalso. eapply leading_not_zero; eauto.
        * simpl in EB. injection EB as <- EB. split.
          -- intros ->. apply (Hn c); auto. rewrite EB. apply in_app_iff; simpl; auto.
          -- exists A, B'. split; auto. split; auto.
             intros c' Hc'. apply Hn. rewrite EB. apply in_app_iff; auto.
  Qed.

  Lemma read_fold is2 : forall T2 T1 dg,
    NoDup (T1 ++ T2) -> Forall2 (fun i c => nth_error l i = Some c) is2 T2 -> read_inv T1 dg ->
    exists dg', foldM (read_off_step HI r b) is2 dg = Ok dg' /\ read_inv (T1 ++ T2) dg'.
  Proof.
    induction is2 as [|i is2 IH]; intros T2 T1 dg Hnd HF Hinv; inversion HF; subst; simpl.
    - rewrite app_nil_r. eauto.
    - match goal with H : nth_error l i = Some ?y |- _ => rename y into c; pose proof H as Hn end.
      destruct (@read_off_step_spec dg i c Hn) as (dg1 & -> & Hs). cbn [bind].
      destruct (IH l' (T1 ++ [c]) dg1) as (dg' & E & H').
      + rewrite <- app_assoc. exact Hnd.
      + assumption.
      + eapply read_inv_step; eauto. intros Hi. apply NoDup_remove_2 in Hnd. apply Hnd, in_app_iff; auto.
      + exists dg'. split; auto. now rewrite <- app_assoc in H'.
  Qed.

  Lemma seq_forall2 : Forall2 (fun i c => nth_error l i = Some c) (seq 0 (length l)) l.
  Proof.
    assert (H : forall m k, (forall i, nth_error l (k + i) = nth_error m i) ->
              Forall2 (fun i c => nth_error l i = Some c) (seq k (length m)) m).
    { clear. induction m as [|x m IH]; intros k H; simpl; constructor.
      - specialize (H 0). rewrite Nat.add_0_r in H. exact H.
      - apply IH. intros i. specialize (H (S i)). simpl in H. rewrite <- H. f_equal. lia. }
    apply H. reflexivity.
  Qed.
  Lemma Forall2_rev' {A B} (P : A -> B -> Prop) l1 l2 : Forall2 P l1 l2 -> Forall2 P (rev l1) (rev l2).
  Proof. induction 1; simpl; auto. apply Forall2_app; auto. Qed.

  Theorem read_off_spec (rev_order : bool) :
    exists dg, read_off_diagram HI D b v rev_order = Ok dg /\
      read_inv (if rev_order then rev l else l) dg.
  Proof.
    unfold read_off_diagram. fold r. destruct Hb as [Hs _]. rewrite Hs.
    assert (H0 : read_inv [] (Diagram [] [])).
    { split; [constructor|]. split; [constructor|]. split; simpl; [tauto|].
      intros c. split; [tauto|]. intros (A & B & E & _). destruct A; discriminate. }
    destruct rev_order.
    - apply (@read_fold _ _ [] _); auto. simpl. now apply NoDup_rev. apply Forall2_rev', seq_forall2.
    - apply (@read_fold _ _ [] _); auto. apply seq_forall2.
  Qed.

  Lemma read_essential T dg : (forall c, In c l <-> In c T) -> NoDup T -> read_inv T dg ->
    (forall i j, In i l -> In j l -> leading phi (R j) i -> before T i j) ->
    forall c, In c (essential dg) <-> In c l /\ vzero (R c) /\ forall k, In k l -> ~ leading phi (R k) c.
  Proof.
    intros HT HnT (_ & _ & _ & He) Hbef c. rewrite He. split.
    - intros (A & B & -> & Hz & Hn). assert (Hc : In c l) by (apply HT, in_app_iff; simpl; auto).
      split; auto. split; auto. intros k Hk Hlead. pose proof (Hbef c k Hc Hk Hlead) as Hb'.
      apply before_split in Hb'. destruct Hb' as (A' & B' & E & Hi).
      destruct (nodup_split_unique _ _ _ _ _ HnT E) as [_ <-]. eapply Hn; eauto.
    - intros (Hc & Hz & Hn). apply HT in Hc. apply in_split in Hc. destruct Hc as (A & B & ->).
      exists A, B. split; auto. split; auto. intros c' Hc'. apply Hn. apply HT, in_app_iff; simpl; auto.
  Qed.

  (** every death visited before its birth: nothing is ever removed *)
  Lemma read_essential_wrong T dg : (forall c, In c l <-> In c T) -> NoDup T -> read_inv T dg ->
    (forall i j, In i l -> In j l -> leading phi (R j) i -> before T j i) ->
    forall c, In c (essential dg) <-> In c l /\ vzero (R c).
  Proof.
    intros HT HnT (_ & _ & _ & He) Hbef c. rewrite He. split.
    - intros (A & B & -> & Hz & Hn). split; auto. apply HT, in_app_iff; simpl; auto.
    - intros (Hc & Hz). pose proof Hc as Hc'. apply HT in Hc. apply in_split in Hc. destruct Hc as (A & B & E).
      exists A, B. split; auto. split; auto. intros k Hk Hlead.
      apply (@before_asym _ T c k HnT).
      + apply before_split. eauto.
      + apply Hbef; auto. apply HT. rewrite E. apply in_app_iff; simpl; auto.
  Qed.
End ReadOff.
