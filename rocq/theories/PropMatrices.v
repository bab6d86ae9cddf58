(** Properties of matrices, adaptors and combinators (C11-C17, C20, C21). *)
From Verif Require Import Base Fields FieldsFacts Spec LinAlg Columns ColumnsFacts ColumnOps Matrices SpecMat MatricesFacts StandardProofs.
From Coq Require Import Ring Field Sorted.
Set Implicit Arguments.

(* ------------------------------------------------------------------ *)
(** ** C11: product *)
Section Product.
  Context {K : coeffT} {C J R F : ordT}.
  Add Field KFPM : (F_field K).

  (** [Js] is any duplicate-free list of middle indices containing those that occur in column [c]
      of the right factor *)
  Theorem C11_product (left : oracle K J R) (right : oracle K C J) (c : C) rc (Js : list J) :
    right c = Ok rc -> (forall k j, In (k, j) rc -> In j Js /\ exists l, left j = Ok l) -> NoDup Js ->
    exists l, product left right c = Ok l /\
      forall r, coef l r = vsum Js (fun j => fmul (mden left j r) (mden right c j)).
  Proof.
    intros Hr Hl Hnd. destruct (@matrix_col_product_ok K J R left rc) as (l & E & _ & Hc).
    { intros k j H. apply (Hl k j H). }
    exists l. unfold product. rewrite Hr. split; auto. intros r. rewrite Hc.
    rewrite (@coef_combine K J R rc (mden left) Js r Hnd).
    - unfold lincomb. apply vsum_ext. intros j _. rewrite (mden_ok _ _ _ Hr). ring.
    - intros k j H. apply (Hl k j H).
  Qed.

  (** [column_with_filtration] of the product represents the same column, with filtration values from the left factor *)
  Theorem C11_product_filtration (left : fmatrix K J R F) (right : oracle K C J) (c : C) rc (Js : list J) (phi : R -> F) :
    right c = Ok rc -> (forall k j, In (k, j) rc -> In j Js /\ coherent_at phi left j) -> NoDup Js ->
    exists es, m_colf (product_f left right) c = Ok es /\
      (forall e, In e es -> e_fil e = phi (e_row e)) /\
      forall r, coef (map e_term es) r = vsum Js (fun j => fmul (mden (m_col left) j r) (mden right c j)).
  Proof.
    intros Hr Hl Hnd. destruct (@product_f_ok K C J R F phi left right c rc Hr) as (es & E & Hw & Hc).
    { intros k j H. apply (Hl k j H). }
    exists es. split; auto. split; auto. intros r. rewrite Hc.
    rewrite (@coef_combine K J R rc (mden (m_col left)) Js r Hnd).
    - unfold lincomb. apply vsum_ext. intros j _. rewrite (mden_ok _ _ _ Hr). ring.
    - intros k j H. apply (Hl k j H).
  Qed.

  (** it panics exactly when a column it asks for does *)
  Theorem C11_product_panics (left : oracle K J R) (right : oracle K C J) (c : C) :
    (forall c, right c <> NoFuel) -> (forall j, left j <> NoFuel) ->
    (product left right c = Panic <->
       right c = Panic \/ exists rc k j, right c = Ok rc /\ In (k, j) rc /\ left j = Panic).
  Proof.
    intros NR NL. unfold product. destruct (right c) as [rc| |] eqn:Er; cbn [bind].
    - assert (G : matrix_col_product left rc = Panic <-> exists k j, In (k, j) rc /\ left j = Panic).
      { unfold matrix_col_product, flat_mapM. clear Er. induction rc as [|[k j] rc IH]; simpl.
        - split; [discriminate|]. intros (k & j & [] & _).
        - destruct (left j) as [lj| |] eqn:El; cbn [bind].
          + match goal with |- context [mapM ?f rc] => destruct (mapM f rc) as [lr| |] eqn:Em end; cbn [bind] in *.
            * split; [discriminate|]. intros (k' & j' & [[= <- <-]|H] & Hp); [congruence|].
              exfalso. assert (@Ok (list (K * R)) (concat lr) = Panic); [|discriminate]. apply IH. eauto.
            * split; auto. intros _. destruct (proj1 IH eq_refl) as (k' & j' & H & Hp). eauto.
            * split; [discriminate|]. intros (k' & j' & [[= <- <-]|H] & Hp); [congruence|].
              exfalso. assert (@NoFuel (list (K * R)) = Panic); [|discriminate]. apply IH. eauto.
          + split; auto. intros _. eauto.
          + exfalso. now apply (NL j). }
      rewrite G. split; [intros (k & j & H); right; eauto|]. intros [H|(rc' & k & j & [= <-] & H)]; [discriminate|eauto].
    - split; auto.
    - now apply NR in Er.
  Qed.
  (** basis and filtration *)
  Theorem C11_product_basis (left : fmatrix K J R F) (right : oracle K C J) (bl : basis J) (br : basis C) r :
    product_basis bl br = br /\ m_fil (product_f left right) r = m_fil left r.
  Proof. split; reflexivity. Qed.
End Product.

(* ------------------------------------------------------------------ *)
(** ** C12: sum *)
Theorem C12_sum {K : coeffT} {C R : ordT} (left right : oracle K C R) (c : C) l1 l2 :
  left c = Ok l1 -> right c = Ok l2 ->
  exists l, sum left right c = Ok l /\ forall r, coef l r = fadd (mden left c r) (mden right c r).
Proof.
  intros E1 E2. unfold sum. rewrite E1, E2. cbn [bind]. eexists. split; [reflexivity|].
  intros r. rewrite coef_app, (mden_ok _ _ _ E1), (mden_ok _ _ _ E2). reflexivity.
Qed.

(* ------------------------------------------------------------------ *)
(** ** C13: consolidate; C14: eq_on_col *)
Section Consolidate.
  Variable HI : heaps.
  Context {K : coeffT} {C R F : ordT}.
  Add Field KFCN : (F_field K).

  Lemma trivial_drain (m : oracle K C R) c l : m c = Ok l ->
    exists h es h', build_bhcol HI (with_trivial_filtration m) c = Ok h /\ drain_sorted h = Ok (es, h') /\
      wfe triv es /\ desc triv es /\ forall r, coef (map e_term es) r = coef l r.
  Proof.
    intros E. destruct (@build_bhcol_spec K C R unit_ord triv HI (with_trivial_filtration m) c) as (h & Eh & Hw & Hd).
    { exists l, (tag (F:=unit_ord) triv l). simpl. rewrite E. split; auto. split.
      - apply default_colf_ok; auto.
      - split; auto. split; [apply tag_wfe|]. intros r. now rewrite tag_terms. }
    destruct (drain_sorted_spec Hw) as (es & h' & Ed & H1 & H2 & H3 & H4 & _).
    exists h, es, h'. repeat (split; auto). intros r. rewrite H4, Hd. simpl. now rewrite (mden_ok _ _ _ E).
  Qed.

  Theorem C13_consolidate (m : oracle K C R) (c : C) l : m c = Ok l ->
    exists l', consolidate HI m c = Ok l' /\
      StronglySorted (fun x y => olt y x) (map snd l') /\ NoDup (map snd l') /\
      (forall r, coef l' r = coef l r) /\
      (forall k r, In (k, r) l' <-> coef l r = Some k).
  Proof.
    intros E. destruct (trivial_drain _ _ E) as (h & es & h' & Eh & Ed & Hw & Hdesc & Hc).
    exists (map e_term es). unfold consolidate. rewrite Eh. cbn [bind]. rewrite Ed. cbn [bind]. split; auto.
    assert (Hnd : NoDup (map snd (map e_term es))) by (rewrite map_map; apply (desc_nodup _ _ Hdesc)).
    split; [now apply desc_triv_sorted|]. split; auto. split; auto.
    intros k r. rewrite <- Hc. split.
    - intros Hin. now apply coef_nodup.
    - intros Hk. assert (Hn : coef (map e_term es) r <> f0) by (rewrite Hk; discriminate).
      apply coef_in in Hn. destruct Hn as [k' Hin]. rewrite (coef_nodup _ _ _ Hnd Hin) in Hk. congruence.
  Qed.
  (** an unavailable column stays unavailable; the filtration passes through *)
  Theorem C13_consolidate_passes (m : fmatrix K C R F) c r :
    (m_col m c = Panic -> consolidate HI (m_col m) c = Panic) /\ m_fil (consolidate_f HI m) r = m_fil m r.
  Proof.
    split; auto. intros E. unfold consolidate, build_bhcol. simpl. unfold default_colf. now rewrite E.
  Qed.

  (** the adaptor over a filtered matrix hands out the consolidated column through both of its methods *)
  Theorem C13_consolidate_filtered (m : fmatrix K C R F) (phi : R -> F) (c : C) l : m_col m c = Ok l ->
    (forall k r, In (k, r) l -> m_fil m r = Ok (phi r)) ->
    exists l', m_col (consolidate_f HI m) c = Ok l' /\
      m_colf (consolidate_f HI m) c = Ok (map (fun p => Entry (phi (snd p)) (snd p) (fst p)) l') /\
      StronglySorted (fun x y => olt y x) (map snd l') /\ NoDup (map snd l') /\
      (forall k r, In (k, r) l' <-> coef l r = Some k).
  Proof.
    intros E Hf. destruct (C13_consolidate _ _ E) as (l' & E' & H1 & H2 & H3 & H4). exists l'. split; auto. split; [|auto].
    cbn [consolidate_f fm_default m_colf]. unfold default_colf. rewrite E'. cbn [bind].
    assert (G : forall k r, In (k, r) l' -> m_fil m r = Ok (phi r)).
    { intros k r Hr. apply H4 in Hr. assert (Hn : coef l r <> f0) by (rewrite Hr; discriminate). apply coef_in in Hn. destruct Hn as [k' Hn]. eauto. }
    clear -G. induction l' as [|[k r] l' IH]; auto. cbn [mapM map fst snd]. rewrite (G k r) by (left; auto). cbn [bind].
    rewrite IH by (intros; eapply G; right; eauto). reflexivity.
  Qed.

  Lemma terms_eqb_eq (a b : list (K * R)) : terms_eqb a b = true <-> a = b.
  Proof.
    revert b. induction a as [|[c r] a IH]; intros [|[d s] b]; simpl; split; try congruence; auto.
    - rewrite !andb_true_iff. intros [[H1 H2] H3]. apply k_eqb_eq in H1. apply oeqb_eq in H2. apply IH in H3. congruence.
    - intros [= -> -> ->]. rewrite !andb_true_iff. repeat split; [now apply k_eqb_eq|now apply oeqb_eq|now apply IH].
  Qed.

  Theorem C14_eq_on_col (m1 m2 : oracle K C R) (c : C) l1 l2 : m1 c = Ok l1 -> m2 c = Ok l2 ->
    exists b, eq_on_col HI m1 m2 c = Ok b /\ (b = true <-> forall r, mden m1 c r = mden m2 c r).
  Proof.
    intros E1 E2.
    destruct (trivial_drain _ _ E1) as (h & es & h' & Eh & Ed & Hw & Hdesc & Hc).
    destruct (trivial_drain _ _ E2) as (g & es2 & g' & Eg & Ed2 & Hw2 & Hdesc2 & Hc2).
    unfold eq_on_col. rewrite Eh. cbn [bind]. rewrite Ed. cbn [bind]. rewrite Eg. cbn [bind]. rewrite Ed2. cbn [bind].
    eexists. split; [reflexivity|]. rewrite terms_eqb_eq. split.
    - intros H r. rewrite (mden_ok _ _ _ E1), (mden_ok _ _ _ E2), <- Hc, <- Hc2. now rewrite H.
    - intros H. f_equal. apply (@desc_unique _ _ _ triv); auto. intros r. rewrite Hc, Hc2.
      specialize (H r). now rewrite (mden_ok _ _ _ E1), (mden_ok _ _ _ E2) in H.
  Qed.
End Consolidate.

(* ------------------------------------------------------------------ *)
(** ** C15: reverse and unreverse *)
Section Reverse.
  Context {K : coeffT} {C R F : ordT}.

  Theorem C15_reverse_column (m : fmatrix K C R F) (c : C) (r : R) :
    (forall l, m_col m c = Ok l ->
       m_col (reverse_f m) (Reverse c) = Ok (map (fun p => (fst p, Reverse (snd p))) l)) /\
    (m_col m c = Panic -> m_col (reverse_f m) (Reverse c) = Panic) /\
    (forall f, m_fil m r = Ok f -> m_fil (reverse_f m) (Reverse r) = Ok (Reverse f)) /\
    mden (m_col (reverse_f m)) (Reverse c) (Reverse r) = mden (m_col m) c r.
  Proof.
    split; [|split; [|split]].
    - intros l E. simpl. unfold reverse_oracle. simpl. now rewrite E.
    - intros E. simpl. unfold reverse_oracle. simpl. now rewrite E.
    - intros f E. simpl. now rewrite E.
    - unfold mden. simpl. unfold reverse_oracle. simpl. destruct (m_col m c) as [l| |]; simpl; auto.
      induction l as [|[k x] l IH]; simpl; auto. 
      destruct (oeqb_spec x r) as [->|Hn].
      + rewrite oeqb_refl. now rewrite IH.
      + destruct (oeqb_spec (T:=rev_ord R) (Reverse x) (Reverse r)) as [[= E]|_]; [contradiction|]. exact IH.
  Qed.

  (** order: rows compare the other way round *)
  Lemma row_lt_rev (phi : R -> F) (r s : R) :
    row_lt (F:=rev_ord F) (R:=rev_ord R) (fun x => Reverse (phi (unrev x))) (Reverse r) (Reverse s) <-> row_lt phi s r.
  Proof.
    unfold row_lt, olt. simpl. unfold rev_cmp. simpl. split; (intros [H|[H1 H2]]; [left; auto|right; split; auto; congruence]).
  Qed.
  Theorem C15_reverse_leading (phi : R -> F) (m : fmatrix K C R F) (c : C) (i : R) :
    leading (F:=rev_ord F) (R:=rev_ord R) (fun x => Reverse (phi (unrev x))) (mden (m_col (reverse_f m)) (Reverse c)) (Reverse i)
    <-> trailing phi (mden (m_col m) c) i.
  Proof.
    assert (E : forall r, mden (m_col (reverse_f m)) (Reverse c) (Reverse r) = mden (m_col m) c r) by apply C15_reverse_column.
    split; intros [H1 H2]; split.
    - now rewrite <- E.
    - intros r Hr. rewrite <- E. apply H2. now apply row_lt_rev.
    - now rewrite E.
    - intros [r] Hr. rewrite E. apply H2. now apply row_lt_rev.
  Qed.

  Theorem C15_unreverse_reverse (m : fmatrix K C R F) (c : C) (r : R) :
    m_col (unreverse_f (reverse_f m)) c = m_col m c /\
    m_fil (unreverse_f (reverse_f m)) r = m_fil m r /\
    m_colf (unreverse_f (reverse_f m)) c = m_colf m c.
  Proof.
    split; [|split]; simpl.
    - unfold unreverse_oracle, reverse_oracle. simpl. destruct (m_col m c) as [l| |]; simpl; auto.
      f_equal. rewrite map_map. rewrite <- (map_id l) at 2. apply map_ext. now intros [].
    - destruct (m_fil m r); reflexivity.
    - destruct (m_colf m c) as [l| |]; simpl; auto. f_equal. rewrite map_map.
      rewrite <- (map_id l) at 2. apply map_ext. now intros [].
  Qed.
  Theorem C15_reverse_unreverse (m : fmatrix K (rev_ord C) (rev_ord R) (rev_ord F)) (c : rev_ord C) (r : rev_ord R) :
    m_col (reverse_f (unreverse_f m)) c = m_col m c /\
    m_fil (reverse_f (unreverse_f m)) r = m_fil m r /\
    m_colf (reverse_f (unreverse_f m)) c = m_colf m c.
  Proof.
    destruct c as [c], r as [r]. split; [|split]; simpl.
    - unfold unreverse_oracle, reverse_oracle. simpl. destruct (m_col m (Reverse c)) as [l| |]; simpl; auto.
      f_equal. rewrite map_map. rewrite <- (map_id l) at 2. apply map_ext. now intros [k []].
    - destruct (m_fil m (Reverse r)) as [[]| |]; reflexivity.
    - destruct (m_colf m (Reverse c)) as [l| |]; simpl; auto. f_equal. rewrite map_map.
      rewrite <- (map_id l) at 2. apply map_ext. now intros [[] []].
  Qed.

  (** bases: the reversed basis of [l] lists [rev l] *)
  Lemma enum_map_rev {A B : Type} (f : A -> B) (b : basis A) (l : list A) : enumerates b l ->
    enumerates (Basis (b_size b) (fun i => if i <? b_size b then do e <- b_elem b (b_size b - 1 - i); Ok (f e) else Panic)) (map f (rev l)).
  Proof.
    intros [Hs He]. split; simpl.
    - now rewrite map_length, rev_length.
    - intros i c Hi. rewrite nth_error_map in Hi.
      assert (Hlt : i < length l).
      { destruct (nth_error (rev l) i) eqn:E; [|discriminate]. rewrite <- (rev_length l). apply nth_error_Some. congruence. }
      rewrite Hs. destruct (Nat.ltb_spec i (length l)); [|lia].
      destruct (nth_error (rev l) i) as [x|] eqn:E; [|discriminate]. injection Hi as <-.
      rewrite (He (length l - 1 - i) x); auto. rewrite <- E.
      assert (G : forall (l : list A) i, i < length l -> nth_error (rev l) i = nth_error l (length l - 1 - i)).
      { clear. intros l i Hi. destruct l as [|d l']; [simpl in Hi; lia|]. set (l := d :: l') in *.
        rewrite !nth_error_nth' with (d:=d); [|lia|rewrite rev_length; lia]. f_equal. rewrite rev_nth by lia. f_equal. lia. }
      symmetry. now apply G.
  Qed.
  Theorem C15_reverse_basis (b : basis C) (l : list C) : enumerates b l ->
    enumerates (reverse_basis b) (map (@Reverse C) (rev l)) /\ (forall i, length l <= i -> b_elem (reverse_basis b) i = Panic).
  Proof.
    intros H. split; [now apply enum_map_rev|]. intros i Hi. simpl. destruct H as [-> _].
    destruct (Nat.ltb_spec i (length l)); auto; lia.
  Qed.
  Theorem C15_unreverse_basis (b : basis (reverse C)) (l : list (reverse C)) : enumerates b l ->
    enumerates (unreverse_basis b) (map unrev (rev l)).
  Proof. intros H. now apply enum_map_rev. Qed.
  Theorem C15_basis_roundtrip (b : basis C) (l : list C) : enumerates b l -> enumerates (unreverse_basis (reverse_basis b)) l.
  Proof.
    intros H. destruct (C15_reverse_basis H) as [H1 _]. apply C15_unreverse_basis in H1.
    rewrite <- map_rev, rev_involutive, map_map, map_id in H1. exact H1.
  Qed.
  (** the same in each dimension of a split basis *)
  Theorem C15_split (sb : split_basis C) d (b : basis C) (l : list C) : sb_dim sb d = Ok b -> enumerates b l ->
    (exists b', sb_dim (reverse_split sb) d = Ok b' /\ enumerates b' (map (@Reverse C) (rev l))) /\
    (exists b', sb_dim (unreverse_split (reverse_split sb)) d = Ok b' /\ enumerates b' l).
  Proof.
    intros E H. simpl. rewrite E. cbn [bind]. split; eexists; (split; [reflexivity|]).
    - now apply C15_reverse_basis.
    - now apply C15_basis_roundtrip.
  Qed.
  Theorem C15_split_panics (sb : split_basis C) d : sb_dim sb d = Panic ->
    sb_dim (reverse_split sb) d = Panic /\ sb_dim (unreverse_split (reverse_split sb)) d = Panic.
  Proof. intros E. simpl. now rewrite E. Qed.
End Reverse.

(* ------------------------------------------------------------------ *)
(** ** C16: adaptors forward columns, filtrations and bases *)
Section Adaptors.
  Context {K : coeffT} {C R F G : ordT}.
  Theorem C16_columns (m : fmatrix K C R F) (f : R -> res G) (b : basis C) (sb : split_basis C) d (c : C) :
    m_col (with_trivial_filtration (m_col m)) c = m_col m c /\
    m_col (with_filtration (m_col m) f) c = m_col m c /\
    m_col (fst (matrix_with_basis m b)) c = m_col m c /\
    m_col (fst (sub_matrix_in_dimension m sb d)) c = m_col m c /\
    m_col (by_ref m) c = m_col m c /\
    discard_filtration (with_filtration (m_col m) f) = m_col m.
  Proof. repeat split. Qed.
  Theorem C16_filtrations (m : fmatrix K C R F) (f : R -> res G) (b : basis C) (sb : split_basis C) d r :
    m_fil (with_trivial_filtration (m_col m)) r = Ok tt /\
    m_fil (with_filtration (m_col m) f) r = f r /\
    m_fil (fst (matrix_with_basis m b)) r = m_fil m r /\
    m_fil (fst (sub_matrix_in_dimension m sb d)) r = m_fil m r /\
    m_fil (using_col_basis_index_f m b) r = m_fil m r /\
    m_fil (by_ref m) r = m_fil m r.
  Proof. repeat split. Qed.
  Theorem C16_bases (m : fmatrix K C R F) (b : basis C) (sb : split_basis C) d :
    snd (matrix_with_basis m b) = b /\ snd (sub_matrix_in_dimension m sb d) = sb_dim sb d.
  Proof. split; reflexivity. Qed.
  Theorem C16_index (m : fmatrix K C R F) (b : basis C) (l : list C) i c : enumerates b l -> nth_error l i = Some c ->
    m_col (using_col_basis_index_f m b) i = m_col m c.
  Proof. intros [_ H] Hi. simpl. unfold using_col_basis_index. now rewrite (H i c Hi). Qed.
End Adaptors.

(* ------------------------------------------------------------------ *)
(** ** C17: coherence of [column_with_filtration] *)
Section Coherence.
  Context {K : coeffT} {C J R F : ordT}.

  Lemma lists_default {G : ordT} (col : oracle K C R) (fil : R -> res G) c l :
    col c = Ok l -> (forall k r, In (k, r) l -> exists f, fil r = Ok f) -> lists_filtration (fm_default col fil) c.
  Proof.
    intros E Hf. unfold lists_filtration. simpl. unfold default_colf. rewrite E. cbn [bind]. exists l.
    assert (H : exists es, mapM (fun p => do f <- fil (snd p); Ok (entry_of_tuple (fst p, snd p, f))) l = Ok es /\
      Forall2 (fun (p : K * R) (e : entry G R K) => e_coeff e = fst p /\ e_row e = snd p /\ fil (snd p) = Ok (e_fil e)) l es).
    { clear E. induction l as [|[k r] l IH]; [exists []; simpl; auto|]. cbn [mapM].
      destruct (Hf k r (or_introl eq_refl)) as [f Ef]. destruct IH as (es & Es & H2); [intros; eapply Hf; right; eauto|].
      change (snd (k, r)) with r. rewrite Ef. cbn [bind]. rewrite Es. cbn [bind]. eexists. split; [reflexivity|]. constructor; auto. }
    destruct H as (es & Es & H2). exists es. auto.
  Qed.
  Lemma lists_fil (D : fmatrix K C R F) c l : lists_filtration D c -> m_col D c = Ok l -> forall k r, In (k, r) l -> exists f, m_fil D r = Ok f.
  Proof.
    intros (l' & es & E & _ & H2) E' k r Hin. rewrite E in E'. injection E' as ->. clear E.
    induction H2 as [|p e l es (H1 & H2 & H3) _ IH]; [destruct Hin|]. destruct Hin as [->|Hin]; eauto.
  Qed.
  Lemma lists_unfold (D : fmatrix K C R F) c : lists_filtration D c -> exists l, m_col D c = Ok l /\ forall k r, In (k, r) l -> exists f, m_fil D r = Ok f.
  Proof. intros H. pose proof H as (l & es & E & _). exists l. split; auto. now apply (lists_fil H). Qed.

  Theorem C17_adaptors (HI : heaps) (D : fmatrix K C R F) (b : basis C) (sb : split_basis C) d c : lists_filtration D c ->
    lists_filtration (by_ref D) c /\
    lists_filtration (with_trivial_filtration (m_col D)) c /\
    lists_filtration (fst (matrix_with_basis D b)) c /\
    lists_filtration (fst (sub_matrix_in_dimension D sb d)) c /\
    lists_filtration (consolidate_f HI D) c /\
    (forall i, b_elem b i = Ok c -> lists_filtration (using_col_basis_index_f D b) i).
  Proof.
    intros H. destruct (lists_unfold H) as (l & E & Hf).
    assert (H0 : lists_filtration (by_ref D) c) by (apply lists_default with l; auto).
    split; auto. split; [apply lists_default with l; auto; intros; now exists tt|]. split; auto. split; auto. split.
    - destruct (C13_consolidate HI (m_col D) c E) as (l' & E' & _ & _ & _ & Hin). apply lists_default with l'; auto.
      intros k r Hr. apply Hin in Hr. assert (Hn : coef l r <> f0) by (rewrite Hr; discriminate).
      apply coef_in in Hn. destruct Hn as [k' Hk]. eauto.
    - intros i Hi. unfold lists_filtration. simpl. unfold default_colf, using_col_basis_index. rewrite Hi. exact H0.
  Qed.
  Theorem C17_with_filtration {G : ordT} (m : oracle K C R) (f : R -> res G) c l :
    m c = Ok l -> (forall k r, In (k, r) l -> exists g, f r = Ok g) -> lists_filtration (with_filtration m f) c.
  Proof. intros. now apply lists_default with l. Qed.
  Theorem C17_reverse (D : fmatrix K C R F) c : lists_filtration D c -> lists_filtration (reverse_f D) (Reverse c).
  Proof.
    intros (l & es & E1 & E2 & H). unfold lists_filtration. simpl. unfold reverse_oracle. simpl. rewrite E1, E2. cbn [bind].
    do 2 eexists. split; [reflexivity|]. split; [reflexivity|]. clear E1 E2.
    induction H as [|[k r] e l es (H1 & H2 & H3) H IH]; simpl; constructor; auto. simpl in *. subst. repeat split. now rewrite H3.
  Qed.
  Theorem C17_unreverse (D : fmatrix K (rev_ord C) (rev_ord R) (rev_ord F)) c : lists_filtration D (Reverse c) -> lists_filtration (unreverse_f D) c.
  Proof.
    intros (l & es & E1 & E2 & H). unfold lists_filtration. simpl. unfold unreverse_oracle. simpl. rewrite E1, E2. cbn [bind].
    do 2 eexists. split; [reflexivity|]. split; [reflexivity|]. clear E1 E2.
    induction H as [|[k [r]] e l es (H1 & H2 & H3) H IH]; simpl; constructor; auto. simpl in *. subst. rewrite H2. simpl. rewrite H3. repeat split.
  Qed.
  Theorem C17_product (left : fmatrix K J R F) (right : oracle K C J) c rc :
    right c = Ok rc -> (forall k j, In (k, j) rc -> lists_filtration left j) -> lists_filtration (product_f left right) c.
  Proof.
    intros Hr Hl. unfold lists_filtration. simpl. unfold product. rewrite Hr. cbn [bind]. unfold matrix_col_product, flat_mapM. clear Hr.
    induction rc as [|[k j] rc IH]; simpl.
    - exists [], []. repeat split; auto.
    - destruct (Hl k j (or_introl eq_refl)) as (lj & ej & E1 & E2 & H). rewrite E1, E2. cbn [bind].
      destruct IH as (l & es & F1 & F2 & H'); [intros; eapply Hl; right; eauto|].
      apply bind_Ok in F1. destruct F1 as (ll & F1 & [= <-]). apply bind_Ok in F2. destruct F2 as (le & F2 & [= <-]).
      rewrite F1, F2. cbn [bind concat]. do 2 eexists. split; [reflexivity|]. split; [reflexivity|]. cbn [concat].
      apply Forall2_app; auto. clear -H. induction H as [|[k' r] e l es (H1 & H2 & H3) H IH]; simpl; constructor; auto.
      simpl in *. subst. auto.
  Qed.
  (** literal coherence implies the weaker contract used by the reduction theorems *)
  Theorem C17_coherent_at (D : fmatrix K C R F) (phi : R -> F) c : lists_filtration D c ->
    (forall l k r, m_col D c = Ok l -> In (k, r) l -> m_fil D r = Ok (phi r)) -> coherent_at phi D c.
  Proof.
    intros (l & es & E1 & E2 & H) Hphi. exists l, es. split; auto. split; auto. split; [intros; eapply Hphi; eauto|].
    assert (G : forall k r, In (k, r) l -> m_fil D r = Ok (phi r)) by (intros; eapply Hphi; eauto). clear E1 E2 Hphi. split.
    - induction H as [|[k r] e l es (H1 & H2 & H3) H IH]; [intros e []|].
      intros e' [<-|He']; [|apply IH; auto; intros; eapply G; right; eauto]. simpl in *. rewrite H2.
      rewrite (G k r) in H3 by (now left). congruence.
    - intros r. f_equal. clear G. induction H as [|[k x] e l es (H1 & H2 & H3) H IH]; simpl; auto. rewrite IH.
      unfold e_term. simpl in *. now subst.
  Qed.
End Coherence.

(* ------------------------------------------------------------------ *)
(** ** C20: reverse lookup *)
Section Lookup.
  Context {C : ordT}.
  Lemma lookup_fold (l : list C) : forall (n : nat) (m0 : kmap C nat) c i,
    map_get c (fold_left (fun m p => map_insert (fst p) (snd p) m) (combine l (seq n (length l))) m0) = Some i <->
    (exists j, i = n + j /\ nth_error l j = Some c /\ forall j', j < j' -> nth_error l j' <> Some c) \/
    (~ In c l /\ map_get c m0 = Some i).
  Proof.
    induction l as [|x l IH]; intros n m0 c i.
    - cbn [length seq combine fold_left]. split.
      + intros H. right. split; auto.
      + intros [(j & _ & H & _)|[_ H]]; auto. now destruct j.
    - cbn [length seq combine fold_left fst snd]. rewrite IH. split.
      + intros [(j & -> & H1 & H2)|[H1 H2]].
        * left. exists (S j). split; [lia|]. split; auto. intros [|j'] Hj; [lia|]. apply H2. lia.
        * destruct (ord_eq_dec x c) as [->|Hne].
          -- rewrite map_get_insert_eq in H2. injection H2 as <-. left. exists 0. split; [lia|]. split; auto.
             intros [|j'] Hj; [lia|]. simpl. intros H. apply nth_error_In in H. contradiction.
          -- rewrite map_get_insert_neq in H2 by auto. right. split; auto. intros [->|H]; [congruence|contradiction].
      + intros [([|j] & -> & H1 & H2)|[H1 H2]].
        * simpl in H1. injection H1 as ->. right. split.
          -- intros Hin. apply In_nth_error in Hin. destruct Hin as [j Hj]. apply (H2 (S j)); [lia|exact Hj].
          -- rewrite map_get_insert_eq. f_equal. lia.
        * left. exists j. split; [lia|]. split; auto. intros j' Hj. apply (H2 (S j')). lia.
        * right. split; [intros H; apply H1; now right|]. rewrite map_get_insert_neq; auto. intros ->. apply H1. now left.
  Qed.
  (** a vector is the basis that lists its elements in order; indexing out of range panics *)
  Theorem C20_vec_basis (l : list C) :
    enumerates (vec_basis l) l /\ forall i, length l <= i -> b_elem (vec_basis l) i = Panic.
  Proof.
    unfold vec_basis, index. split; [split; simpl; auto|]; simpl.
    - intros i c ->. reflexivity.
    - intros i Hi. apply nth_error_None in Hi. now rewrite Hi.
  Qed.
  Theorem C20_reverse_lookup (b : basis C) (l : list C) : enumerates b l ->
    exists m, reverse_lookup b = Ok m /\
      (forall c i, map_get c m = Some i <-> nth_error l i = Some c /\ forall j, i < j -> nth_error l j <> Some c) /\
      (forall c, map_get c m = None <-> ~ In c l) /\
      (NoDup l -> forall c i, map_get c m = Some i <-> nth_error l i = Some c).
  Proof.
    intros [Hs He]. unfold reverse_lookup. rewrite Hs.
    assert (E : mapM (fun i => do e <- b_elem b i; Ok (e, i)) (seq 0 (length l)) = Ok (combine l (seq 0 (length l)))).
    { assert (G : forall l0 n, (forall i c, nth_error l0 i = Some c -> b_elem b (n + i) = Ok c) ->
        mapM (fun i => do e <- b_elem b i; Ok (e, i)) (seq n (length l0)) = Ok (combine l0 (seq n (length l0)))).
      { clear. induction l0 as [|x l0 IH]; intros n H; simpl; auto.
        pose proof (H 0 x eq_refl) as H0. rewrite Nat.add_0_r in H0. rewrite H0. cbn [bind]. rewrite IH; [reflexivity|].
        intros i c Hi. specialize (H (S i) c Hi). now rewrite Nat.add_succ_r in H. }
      apply G. exact He. }
    rewrite E. cbn [bind]. eexists. split; [reflexivity|].
    assert (H1 : forall c i, map_get c (fold_left (fun m p => map_insert (fst p) (snd p) m) (combine l (seq 0 (length l))) []) = Some i <->
       nth_error l i = Some c /\ forall j, i < j -> nth_error l j <> Some c).
    { intros c i. rewrite lookup_fold. simpl. split.
      - intros [(j & -> & H)|[_ H]]; [auto|discriminate].
      - intros H. left. eauto. }
    split; [exact H1|]. split.
    - intros c. split.
      + intros Hn Hin.
        assert (Hlast : exists i, nth_error l i = Some c /\ forall j, i < j -> nth_error l j <> Some c).
        { clear - Hin. induction l as [|x l IH]; [destruct Hin|].
          destruct (in_dec ord_eq_dec c l) as [H|H].
          - destruct (IH H) as (i & H1 & H2). exists (S i). split; auto. intros [|j] Hj; [lia|]. apply H2. lia.
          - exists 0. destruct Hin as [->|Hin]; [|contradiction]. split; auto. intros [|j] Hj; [lia|]. simpl. intros E.
            apply nth_error_In in E. contradiction. }
        destruct Hlast as (i & Hi). apply H1 in Hi. congruence.
      + intros Hn. destruct (map_get c _) as [i|] eqn:Ei; auto. apply H1 in Ei. destruct Ei as [Ei _]. apply nth_error_In in Ei. contradiction.
    - intros Hnd c i. rewrite H1. split; [tauto|]. intros Hi. split; auto. intros j Hj E'.
      assert (i = j); [|lia]. apply (proj1 (NoDup_nth_error l) Hnd); [apply nth_error_Some; congruence|congruence].
  Qed.
End Lookup.

(* ------------------------------------------------------------------ *)
(** ** C21: concrete matrices *)
Section Concrete.
  Context {K : coeffT} {C R : ordT}.
  Theorem C21_vecvec (cols : list (list (K * R))) (rows : list (list R)) (i : nat) :
    (forall l, nth_error cols i = Some l -> vecvec_column (vecvec_new cols) i = Ok l) /\
    (length cols <= i -> vecvec_column (vecvec_new cols) i = Panic) /\
    (forall l, nth_error rows i = Some l -> vecvec_column (vecvec_new_all_one (K:=K) rows) i = Ok (map (fun r => (k_one, r)) l)) /\
    (length rows <= i -> vecvec_column (vecvec_new_all_one (K:=K) rows) i = Panic) /\
    enumerates (vecvec_basis cols) (seq 0 (length cols)).
  Proof.
    unfold vecvec_column, vecvec_new_all_one, vecvec_new. split; [|split; [|split; [|split]]].
    - now intros l ->.
    - intros H. apply nth_error_None in H. now rewrite H.
    - intros l E. rewrite nth_error_map, E. reflexivity.
    - intros H. apply nth_error_None in H. rewrite nth_error_map, H. reflexivity.
    - split; simpl; [now rewrite seq_length|]. intros j c E. f_equal.
      assert (Hj : j < length (seq 0 (length cols))) by (apply nth_error_Some; congruence). rewrite seq_length in Hj.
      rewrite (nth_error_nth' _ 0) in E by now rewrite seq_length. rewrite seq_nth in E by auto. simpl in E. congruence.
  Qed.
  Theorem C21_mapvec (cols : kmap C (list (K * R))) (c : C) :
    (forall l, map_get c cols = Some l <-> mapvec_column cols c = Ok l) /\
    (map_get c cols = None <-> mapvec_column cols c = Panic).
  Proof.
    unfold mapvec_column. destruct (map_get c cols) as [l|]; simpl; split; try (intros l0); split; congruence.
  Qed.
End Concrete.

(* ------------------------------------------------------------------ *)
(** ** Concrete cases: each hypothesis above is met, with repeated rows, cancellation and a missing column *)
Definition pm_K : coeffT := Z3_coeff.
Definition pm_one : pm_K := exist (fun a => zp_okb 3 a = true) 1%Z eq_refl.
Definition pm_two : pm_K := exist (fun a => zp_okb 3 a = true) 2%Z eq_refl.
Definition pm_m : oracle pm_K nat_ord nat_ord :=
  vecvec_column (K:=pm_K) (R:=nat_ord) [[(pm_one, 0); (pm_two, 1)]; [(pm_one, 1); (pm_one, 1); (pm_one, 0)]; [(pm_one, 1); (pm_two, 1)]].
Definition pm_f : fmatrix pm_K nat_ord nat_ord nat_ord := with_filtration (F:=nat_ord) pm_m (fun r : nat => Ok (10 - r)).

Example C11_ex : (forall k j, In (k, j) [(pm_one : pm_K, 1 : nat_ord); (pm_two, 0 : nat_ord)] -> In j [0; 1 : nat_ord] /\ exists l, pm_m j = Ok l) /\
  product pm_m (vecvec_column (K:=pm_K) (R:=nat_ord) [[(pm_one, 1); (pm_two, 0)]; [(pm_one, 7)]]) 0 =
    Ok [(pm_one, 1); (pm_one, 1); (pm_one, 0); (pm_two, 0); (pm_one, 1)] /\
  product pm_m (vecvec_column (K:=pm_K) (R:=nat_ord) [[(pm_one, 1); (pm_two, 0)]; [(pm_one, 7)]]) 1 = Panic.
Proof.
  split; [|split; vm_compute; reflexivity]. intros k j [[= <- <-]|[[= <- <-]|[]]]; simpl; split; auto; eexists; reflexivity.
Qed.
Example C12_ex : sum pm_m pm_m 2 = Ok [(pm_one, 1); (pm_two, 1); (pm_one, 1); (pm_two, 1)] /\ sum pm_m pm_m 3 = Panic.
Proof. split; vm_compute; reflexivity. Qed.
Example C13_ex : pm_m 1 = Ok [(pm_one, 1); (pm_one, 1); (pm_one, 0)] /\
  consolidate list_heaps pm_m 1 = Ok [(pm_two, 1); (pm_one, 0)] /\ consolidate list_heaps pm_m 2 = Ok [] /\
  (forall k r, In (k, r) [(pm_one : pm_K, 1 : nat_ord); (pm_one, 1 : nat_ord); (pm_one, 0 : nat_ord)] -> m_fil pm_f r = Ok (10 - r : nat_ord)).
Proof. split; [reflexivity|]. split; [vm_compute; reflexivity|]. split; [vm_compute; reflexivity|]. reflexivity. Qed.
Example C14_ex : eq_on_col list_heaps pm_m (sum pm_m pm_m) 2 = Ok true /\ eq_on_col list_heaps pm_m (sum pm_m pm_m) 0 = Ok false.
Proof. split; vm_compute; reflexivity. Qed.
Example C15_ex : m_col (reverse_f pm_f) (Reverse (0 : nat_ord)) = Ok [(pm_one, Reverse 0); (pm_two, Reverse 1)] /\
  m_fil (reverse_f pm_f) (Reverse (1 : nat_ord)) = Ok (Reverse (9 : nat_ord)) /\
  enumerates (vec_basis [4; 5; 6 : nat_ord]) [4; 5; 6] /\
  b_elem (reverse_basis (vec_basis [4; 5; 6 : nat_ord])) 0 = Ok (Reverse (6 : nat_ord)).
Proof. split; [reflexivity|]. split; [reflexivity|]. split; [exact (proj1 (C20_vec_basis (C:=nat_ord) _))|reflexivity]. Qed.
Example C16_ex : nth_error [2; 0 : nat_ord] 1 = Some (0 : nat_ord) /\ enumerates (vec_basis [2; 0 : nat_ord]) [2; 0] /\
  m_col (using_col_basis_index_f pm_f (vec_basis [2; 0 : nat_ord])) 1 = Ok [(pm_one, 0); (pm_two, 1)].
Proof. split; [reflexivity|]. split; [exact (proj1 (C20_vec_basis (C:=nat_ord) _))|vm_compute; reflexivity]. Qed.
Example C17_ex : lists_filtration pm_f 1 /\ lists_filtration (consolidate_f list_heaps pm_f) 1.
Proof.
  assert (H : lists_filtration pm_f 1) by (apply C17_with_filtration with [(pm_one, 1); (pm_one, 1); (pm_one, 0)]; [reflexivity|intros; eauto]).
  split; auto. now apply (C17_adaptors list_heaps (vec_basis []) (SplitBasis (vec_basis []) (fun _ => Panic)) 0 H).
Qed.
Example C20_ex : exists m, reverse_lookup (C:=nat_ord) (vec_basis [4; 9; 4]) = Ok m /\
  map_get (4 : nat_ord) m = Some 2 /\ map_get (9 : nat_ord) m = Some 1 /\ map_get (5 : nat_ord) m = None.
Proof. eexists. split; [reflexivity|]. repeat split. Qed.
Example C21_ex : vecvec_column (vecvec_new_all_one (K:=pm_K) (R:=nat_ord) [[3; 4]]) 0 = Ok [(pm_one, 3); (pm_one, 4)] /\
  vecvec_column (vecvec_new_all_one (K:=pm_K) (R:=nat_ord) [[3; 4]]) 1 = Panic.
Proof. split; reflexivity. Qed.
