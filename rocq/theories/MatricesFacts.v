(** Facts about the matrix model used by the reduction proofs. *)
From Verif Require Import Base Fields Spec LinAlg Columns ColumnsFacts Matrices SpecMat.
From Coq Require Import Ring Field.
Set Implicit Arguments.

Section MF.
  Context {K : coeffT} {C R F : ordT} (phi : R -> F).
  Add Field KFM : (F_field K).

  Definition tag (l : list (K * R)) : list (entry F R K) :=
    map (fun p => Entry (phi (snd p)) (snd p) (fst p)) l.

  Lemma tag_terms l : map e_term (tag l) = l.
  Proof.
    unfold tag. rewrite map_map. rewrite <- (map_id l) at 2. apply map_ext. now intros [k r].
  Qed.
  Lemma tag_wfe l : wfe phi (tag l).
  Proof. intros e He. apply in_map_iff in He. destruct He as (p & <- & _). reflexivity. Qed.

  Lemma default_colf_ok (col : oracle K C R) fil c l :
    col c = Ok l -> (forall k r, In (k, r) l -> fil r = Ok (phi r)) ->
    default_colf col fil c = Ok (tag l).
  Proof.
    intros Hc Hf. unfold default_colf. rewrite Hc. simpl.
    erewrite mapM_pure; [reflexivity|]. intros [k r] Hin. simpl. rewrite (Hf k r Hin). reflexivity.
  Qed.

  Lemma coherent_default (D : fmatrix K C R F) c l :
    m_col D c = Ok l -> (forall k r, In (k, r) l -> m_fil D r = Ok (phi r)) ->
    coherent_at phi (by_ref D) c.
  Proof.
    intros Hc Hf. exists l, (tag l). simpl. rewrite (default_colf_ok _ _ _ Hc Hf).
    repeat split; auto. apply tag_wfe. intros r. now rewrite tag_terms.
  Qed.

  Lemma coherent_by_ref (D : fmatrix K C R F) c : coherent_at phi D c -> coherent_at phi (by_ref D) c.
  Proof. intros (l & es & H1 & H2 & H3 & H4 & H5). eapply coherent_default; eauto. Qed.

  Lemma mden_ok (m : oracle K C R) c l r : m c = Ok l -> mden m c r = coef l r.
  Proof. unfold mden. now intros ->. Qed.

  Lemma build_bhcol_spec (HI : heaps) (D : fmatrix K C R F) c : coherent_at phi D c ->
    exists h, build_bhcol HI D c = Ok h /\ wfc phi h /\ forall r, den h r = mden (m_col D) c r.
  Proof.
    intros (l & es & H1 & H2 & H3 & H4 & H5). unfold build_bhcol. rewrite H2. simpl.
    eexists. split; [reflexivity|]. split.
    - apply wfc_add_entries; auto. apply wfc_empty.
    - intros r. rewrite den_add_entries, den_empty, H5, (mden_ok _ _ _ H1). ring.
  Qed.

  Lemma coef_tag_scale (l : list (entry F R K)) m r :
    coef (map e_term (map (fun e => entry_scale e m) l)) r = fmul (Some m) (coef (map e_term l) r).
  Proof.
    rewrite <- coef_scale. rewrite !map_map. f_equal.
  Qed.
  Lemma wfe_scale (l : list (entry F R K)) m : wfe phi l -> wfe phi (map (fun e => entry_scale e m) l).
  Proof. intros H e He. apply in_map_iff in He. destruct He as (x & <- & Hx). simpl. auto. Qed.
End MF.

Section MP.
  Context {K : coeffT} {C J R F : ordT} (phi : R -> F).
  Add Field KFM2 : (F_field K).

  (** the entries of a product column *)
  Lemma product_f_ok (D : fmatrix K J R F) (right : oracle K C J) c rc :
    right c = Ok rc -> (forall k j, In (k, j) rc -> coherent_at phi D j) ->
    exists es, m_colf (product_f D right) c = Ok es /\ wfe phi es /\
      forall r, coef (map e_term es) r = vsum rc (fun p => fmul (mden (m_col D) (snd p) r) (Some (fst p))).
  Proof.
    intros Hr Hco. simpl. rewrite Hr. simpl. clear Hr. unfold flat_mapM.
    induction rc as [|[k j] rc IH]; simpl.
    - exists []. repeat split; auto. intros e [].
    - destruct (Hco k j (or_introl eq_refl)) as (l & es & H1 & H2 & H3 & H4 & H5). rewrite H2. simpl.
      destruct IH as (es' & E & Hw & Hc); [intros; eapply Hco; right; eauto|].
      apply bind_Ok in E. destruct E as (ll & E & [= <-]). rewrite E. simpl.
      eexists. split; [reflexivity|]. split.
      + intros e He. apply in_app_iff in He. destruct He as [He|He]; auto.
        apply in_map_iff in He. destruct He as (x & <- & Hx). simpl. auto.
      + intros r. rewrite map_app, coef_app, Hc. f_equal.
        rewrite (mden_ok _ _ _ H1), <- H5.
        destruct (F_ring K). rewrite Rmul_comm, <- coef_scale, !map_map. reflexivity.
  Qed.

  Lemma matrix_col_product_ok (D : oracle K J R) rc :
    (forall k j, In (k, j) rc -> exists l, D j = Ok l) ->
    exists l, matrix_col_product D rc = Ok l /\
      (forall k r, In (k, r) l -> exists k' j lj k'', In (k', j) rc /\ D j = Ok lj /\ In (k'', r) lj) /\
      forall r, coef l r = vsum rc (fun p => fmul (mden D (snd p) r) (Some (fst p))).
  Proof.
    unfold matrix_col_product, flat_mapM.
    induction rc as [|[k j] rc IH]; simpl; intros Hco.
    - exists []. split; [reflexivity|]. split; [intros ? ? []|reflexivity].
    - destruct (Hco k j (or_introl eq_refl)) as (l & Hl). rewrite Hl. simpl.
      destruct IH as (l' & E & Hin & Hc); [intros; eapply Hco; right; eauto|].
      apply bind_Ok in E. destruct E as (ll & E & [= <-]). rewrite E. simpl.
      eexists. split; [reflexivity|]. split.
      + intros k0 r0 H. apply in_app_iff in H. destruct H as [H|H].
        * apply in_map_iff in H. destruct H as ([k1 r1] & [= <- <-] & Hx).
          exists k, j, l, k1. auto.
        * destruct (Hin _ _ H) as (k' & j' & lj & k'' & H1 & H2 & H3). exists k', j', lj, k''. auto.
      + intros r. rewrite coef_app, Hc. f_equal.
        rewrite (mden_ok _ _ _ Hl). destruct (F_ring K). rewrite Rmul_comm, <- coef_scale. reflexivity.
  Qed.
End MP.
