(** The column-reduction loop shared by the standard and the clearing
    algorithm, with the access to the already reduced columns abstracted. *)
From Verif Require Import Base Fields Spec LinAlg Columns ColumnsFacts Matrices SpecMat MatricesFacts Reduction.
From Coq Require Import Ring Field.
Set Implicit Arguments.

Lemma filter_length_le' {A} (q : A -> bool) l : length (filter q l) <= length l.
Proof. induction l as [|x l IH]; simpl; auto. destruct (q x); simpl; lia. Qed.

Section GenLoop.
  Variable HI : heaps.
  Context {K : coeffT} {C F : ordT}.

  Fixpoint gen_loop (fuel : nat) (fetchR : C -> res (list (entry F C K)))
      (fetchV : C -> res (list (entry unit_ord C K))) (low : @low_map K C)
      (r_i : bhcol HI F C K) (v_i : bhcol HI unit_ord C K)
      : res (bhcol HI F C K * bhcol HI unit_ord C K) :=
    match fuel with
    | O => NoFuel
    | S fuel =>
        do (o, r_i) <- clone_pivot r_i;
        match o with
        | None => Ok (r_i, v_i)
        | Some pivot =>
            match map_get (e_row pivot) low with
            | None => Ok (r_i, v_i)
            | Some (j, j_coeff) =>
                let m := k_mul (k_neg (e_coeff pivot)) (k_inv j_coeff) in
                do es <- fetchR j;
                do vs <- fetchV j;
                gen_loop fuel fetchR fetchV low
                  (add_entries r_i (map (fun e => entry_scale e m) es))
                  (add_entries v_i (map (fun e => entry_scale e m) vs))
            end
        end
    end.

  Lemma standard_loop_gen fuel (D : fmatrix K C C F) v low r_i v_i :
    standard_loop HI fuel D v low r_i v_i =
    gen_loop fuel (m_colf (product_f (by_ref D) (mapvec_column v)))
      (m_colf (with_trivial_filtration (mapvec_column v))) low r_i v_i.
  Proof.
    revert r_i v_i. induction fuel as [|fuel IH]; intros r_i v_i; simpl; auto.
    unfold clone_pivot. destruct (pop_pivot r_i) as [[o r1]| |]; simpl; auto.
    destruct o as [p|]; simpl; auto. destruct (map_get (e_row p) low) as [[j k]|]; auto.
    simpl in *.
    match goal with |- bind ?a _ = bind ?b _ => destruct a eqn:?; simpl; auto end.
    match goal with |- bind ?a _ = bind ?b _ => destruct a eqn:?; simpl; auto end.
  Qed.

  Lemma reduce_column_gen fuel (D : fmatrix K C C F) rc low r_i v_i :
    reduce_column HI fuel D rc low r_i v_i =
    gen_loop fuel (m_colf (product_f (by_ref D) (crm_column (m_col D) rc)))
      (m_colf (with_trivial_filtration (crm_column (m_col D) rc))) low r_i v_i.
  Proof.
    revert r_i v_i. induction fuel as [|fuel IH]; intros r_i v_i; simpl; auto.
    destruct (clone_pivot r_i) as [[o r1]| |]; simpl; auto.
    destruct o as [p|]; simpl; auto. destruct (map_get (e_row p) low) as [[j k]|]; auto.
    simpl in *.
    match goal with |- bind ?a _ = bind ?b _ => destruct a eqn:?; simpl; auto end.
    match goal with |- bind ?a _ = bind ?b _ => destruct a eqn:?; simpl; auto end.
  Qed.

  (** *** Correctness and termination *)
  Variable phi : C -> F.
  Add Field KFL : (F_field K).
  Notation triv := (fun _ : C => tt : unit_ord).

  Variables (fetchR : C -> res (list (entry F C K))) (fetchV : C -> res (list (entry unit_ord C K)))
            (low : @low_map K C) (S : list C) (Rden Vden : C -> vec K C).
  Hypothesis Hlow : forall i j k, map_get i low = Some (j, k) ->
    leading phi (Rden j) i /\ Rden j i = Some k /\ (forall r, Rden j r <> f0 -> In r S) /\
    (exists es, fetchR j = Ok es /\ wfe phi es /\ forall r, coef (map e_term es) r = Rden j r) /\
    (exists vs, fetchV j = Ok vs /\ wfe triv vs /\ forall r, coef (map e_term vs) r = Vden j r).

  Definition loop_post (d0 v0 : vec K C) (r' : bhcol HI F C K) (v' : bhcol HI unit_ord C K) : Prop :=
    exists steps : list (K * C),
      (forall m j, In (m, j) steps -> exists i k, map_get i low = Some (j, k) /\
         forall G : C -> Prop, (forall r, d0 r <> f0 -> G r) ->
           (forall i' j' k', map_get i' low = Some (j', k') -> G i' -> forall r, Rden j' r <> f0 -> G r) -> G i) /\
      (forall r, den r' r = fadd (d0 r) (vsum steps (fun p => fmul (Some (fst p)) (Rden (snd p) r)))) /\
      (forall r, den v' r = fadd (v0 r) (vsum steps (fun p => fmul (Some (fst p)) (Vden (snd p) r)))) /\
      wfc phi r' /\ wfc triv v' /\
      (forall r, den r' r <> f0 -> In r S) /\
      ((vzero (den r') /\ peek_pivot r' = None) \/
       exists p, peek_pivot r' = Some p /\ e_fil p = phi (e_row p) /\ leading phi (den r') (e_row p) /\
         den r' (e_row p) = Some (e_coeff p) /\ map_get (e_row p) low = None).

  Lemma gen_loop_spec fuel : forall r_i v_i S',
    length S' < fuel -> wfc phi r_i -> wfc triv v_i ->
    (forall r, den r_i r <> f0 -> In r S') ->
    incl S' S -> (forall s t, In s S -> In t S' -> row_le phi s t -> In s S') ->
    exists r' v', gen_loop fuel fetchR fetchV low r_i v_i = Ok (r', v') /\
      loop_post (den r_i) (den v_i) r' v'.
  Proof.
    induction fuel as [|fuel IH]; intros r_i v_i S' Hf Hwr Hwv Hs Hincl Hdown; [lia|]. simpl.
    destruct (clone_pivot_spec Hwr) as (o & r1 & -> & Hw1 & Hd1 & Hpeek & Ho & _). simpl.
    assert (Hbase : forall i, (o = None \/ exists p, o = Some p /\ map_get (e_row p) low = i /\ i = None) ->
              loop_post (den r_i) (den v_i) r1 v_i).
    { intros i Hi. exists []. simpl.
      refine (conj _ (conj _ (conj _ (conj Hw1 (conj Hwv (conj _ _)))))).
      - intros m j [].
      - intros r. rewrite Hd1. ring.
      - intros r. ring.
      - intros r. rewrite Hd1. auto.
      - destruct Hi as [->|(p & -> & E & ->)].
        + left. split; auto. intros r. rewrite Hd1. apply Ho.
        + right. exists p. destruct Ho as (H1 & H2 & H3). rewrite Hd1. repeat split; auto.
          * rewrite Hd1. apply H3.
          * intros r Hr. rewrite Hd1. now apply H3. }
    destruct o as [p|].
    2: { do 2 eexists. split; [reflexivity|]. apply (Hbase None). auto. }
    destruct (map_get (e_row p) low) as [[j k]|] eqn:Eg.
    2: { do 2 eexists. split; [reflexivity|]. apply (Hbase None). right. eauto. }
    clear Hbase. destruct Ho as (Hfp & Hdp & Hlead).
    destruct (Hlow _ Eg) as (HlR & HkR & HsR & (es & Ees & Hwes & Hces) & (vs & Evs & Hwvs & Hcvs)).
    rewrite Ees, Evs. simpl.
    set (m := k_mul (k_neg (e_coeff p)) (k_inv k)).
    set (r2 := add_entries r1 (map (fun e => entry_scale e m) es)).
    set (v2 := add_entries v_i (map (fun e => entry_scale e m) vs)).
    assert (Hr2 : forall r, den r2 r = fadd (den r_i r) (fmul (Some m) (Rden j r))).
    { intros r. unfold r2. rewrite den_add_entries, coef_tag_scale, Hces, Hd1. ring. }
    assert (Hv2 : forall r, den v2 r = fadd (den v_i r) (fmul (Some m) (Vden j r))).
    { intros r. unfold v2. rewrite den_add_entries, coef_tag_scale, Hcvs. ring. }
    assert (Hpz : den r2 (e_row p) = f0).
    { rewrite Hr2, Hdp, HkR. unfold m. rewrite k_mul_f, k_neg_f, k_inv_f. field. discriminate. }
    assert (HpS : In (e_row p) S') by (apply Hs; rewrite Hdp; discriminate).
    assert (Hlt : forall r, den r2 r <> f0 -> row_lt phi r (e_row p) /\ In r S').
    { intros r Hr. assert (Hle : row_le phi r (e_row p)).
      { apply row_le_not_lt. intros Hgt. apply Hr. rewrite Hr2.
        destruct Hlead as [_ Hl1]. destruct HlR as [_ Hl2]. rewrite Hl1, Hl2 by auto. ring. }
      split; [destruct Hle as [|E]; auto; subst; congruence|].
      destruct (fscalar_dec (den r_i r)) as [E|E]; [|auto].
      apply (Hdown r (e_row p)); auto. apply HsR. intros E'. apply Hr. rewrite Hr2, E, E'. ring. }
    pose (q := fun s : C => @oltb (row_ord phi) s (e_row p)).
    assert (Hq : forall s, q s = true <-> row_lt phi s (e_row p)).
    { intros s. unfold q. rewrite row_lt_ord. destruct (@oltb_spec (row_ord phi) s (e_row p)); split; auto; discriminate. }
    destruct (IH r2 v2 (filter q S')) as (r' & v' & E & Hpost).
    - assert (Hlen : length (filter q S') < length S'); [|lia].
      clear - Hq HpS. assert (Hnq : q (e_row p) = false).
      { destruct (q (e_row p)) eqn:E; auto. apply Hq in E. exfalso; eapply row_lt_irrefl; eauto. }
      revert HpS. generalize (e_row p), Hnq. clear. intros a Ha. induction S' as [|x l IHl]; simpl; [tauto|].
      intros [->|H].
      + rewrite Ha. pose proof (filter_length_le' q l). lia.
      + specialize (IHl H). destruct (q x); simpl; lia.
    - apply wfc_add_entries; auto. apply wfe_scale; auto.
    - apply wfc_add_entries; auto. apply wfe_scale; auto.
    - intros r Hr. apply filter_In. destruct (Hlt r Hr). split; auto. now apply Hq.
    - intros s Hin. apply filter_In in Hin. apply Hincl. tauto.
    - intros s t Hs1 Ht Hle. apply filter_In in Ht. destruct Ht as [Ht1 Ht2]. apply filter_In. split.
      + eapply Hdown; eauto.
      + apply Hq. apply Hq in Ht2. eapply row_le_lt_trans; eauto.
    - exists r', v'. split; auto. destruct Hpost as (steps & P1 & P2 & P3 & P4).
      exists ((m, j) :: steps). refine (conj _ (conj _ (conj _ P4))).
      + intros m' j' [[= <- <-]|H].
        * exists (e_row p), k. split; auto. intros G HG _. apply HG. rewrite Hdp. discriminate.
        * destruct (P1 m' j' H) as (i & k' & Hi & HG). exists i, k'. split; auto. intros G HG0 HG1. apply HG; auto.
          intros r Hr. destruct (fscalar_dec (den r_i r)) as [E0|E0]; [|auto]. destruct (fscalar_dec (Rden j r)) as [E1|E1].
          -- exfalso. apply Hr. rewrite Hr2, E0, E1. ring.
          -- apply (HG1 _ _ _ Eg); auto. apply HG0. rewrite Hdp. discriminate.
      + intros r. simpl. rewrite P2, Hr2. ring.
      + intros r. simpl. rewrite P3, Hv2. ring.
  Qed.
End GenLoop.

(** *** The loop depends only on what its inputs denote *)
Section GenSim.
  Variables (HI HI' : heaps).
  Context {K : coeffT} {C F : ordT}.
  Variable phi : C -> F.
  Notation triv := (fun _ : C => tt : unit_ord).

  Lemma pivot_det d n n' o o' (h1 : bhcol HI F C K) (h2 : bhcol HI' F C K) :
    pivot_result phi d n o h1 -> pivot_result phi d n' o' h2 -> o = o'.
  Proof.
    intros [_ H] [_ H']. destruct o as [p|], o' as [p'|]; auto.
    - destruct H as (F1 & D1 & L1 & _), H' as (F2 & D2 & L2 & _).
      pose proof (leading_unique L1 L2) as E. f_equal. destruct p, p'; simpl in *. subst.
      rewrite D1 in D2. congruence.
    - destruct H as (_ & _ & L & _), H' as (Z & _). exfalso. eapply leading_not_zero; eauto.
    - destruct H' as (_ & _ & L & _), H as (Z & _). exfalso. eapply leading_not_zero; eauto.
  Qed.

  Lemma pivot_result_ext d d' n o (h : bhcol HI F C K) :
    (forall r, d r = d' r) -> pivot_result phi d n o h -> pivot_result phi d' n o h.
  Proof.
    intros E [Hw H]. split; auto. destruct o as [p|].
    - destruct H as (H1 & H2 & H3 & H4 & H5). rewrite E in H2.
      refine (conj H1 (conj H2 (conj _ (conj _ H5)))).
      + eapply leading_ext; eauto.
      + intros r. rewrite H4, E. reflexivity.
    - destruct H as [H1 H2]. split; auto. intros r. rewrite <- E. apply H1.
  Qed.
End GenSim.
Section GenSim2.
  Variables (HI HI' : heaps).
  Context {K : coeffT} {C F : ordT}.
  Variable phi : C -> F.
  Notation triv := (fun _ : C => tt : unit_ord).

  Lemma pop_pivot_det (h : bhcol HI F C K) (h' : bhcol HI' F C K) :
    wfc phi h -> wfc phi h' -> (forall r, den h r = den h' r) ->
    exists o h1 h1', pop_pivot h = Ok (o, h1) /\ pop_pivot h' = Ok (o, h1') /\
      pivot_result phi (den h) (length (elems h)) o h1 /\ pivot_result phi (den h') (length (elems h')) o h1'.
  Proof.
    intros Hw Hw' E.
    destruct (pop_pivot_spec Hw) as (o & h1 & E1 & P1).
    destruct (pop_pivot_spec Hw') as (o' & h1' & E1' & P1').
    assert (o = o').
    { eapply pivot_det; [exact P1|]. eapply pivot_result_ext; [|exact P1']. auto. }
    subst o'. exists o, h1, h1'. auto.
  Qed.

  Lemma drain_sorted_det (h : bhcol HI F C K) (h' : bhcol HI' F C K) :
    wfc phi h -> wfc phi h' -> (forall r, den h r = den h' r) ->
    exists es h1 h1', drain_sorted h = Ok (es, h1) /\ drain_sorted h' = Ok (es, h1').
  Proof.
    intros Hw Hw' E.
    destruct (drain_sorted_spec Hw) as (es & h1 & E1 & _ & W1 & D1 & C1 & _).
    destruct (drain_sorted_spec Hw') as (es' & h1' & E1' & _ & W1' & D1' & C1' & _).
    assert (es = es').
    { apply (@desc_unique _ _ _ phi); auto. intros r. rewrite C1, C1'. auto. }
    subst es'. exists es, h1, h1'. auto.
  Qed.

  Variables (fR fR' : C -> res (list (entry F C K))) (fV fV' : C -> res (list (entry unit_ord C K))).
  Variable (low : @low_map K C).
  Hypothesis Hf : forall i j k, map_get i low = Some (j, k) ->
    (exists es es', fR j = Ok es /\ fR' j = Ok es' /\ wfe phi es /\ wfe phi es' /\
       forall r, coef (map e_term es) r = coef (map e_term es') r) /\
    (exists vs vs', fV j = Ok vs /\ fV' j = Ok vs' /\ wfe triv vs /\ wfe triv vs' /\
       forall r, coef (map e_term vs) r = coef (map e_term vs') r).

  Definition sim_res (a : res (bhcol HI F C K * bhcol HI unit_ord C K))
      (b : res (bhcol HI' F C K * bhcol HI' unit_ord C K)) : Prop :=
    match a, b with
    | Ok (r, v), Ok (r', v') =>
        wfc phi r /\ wfc phi r' /\ wfc triv v /\ wfc triv v' /\
        (forall x, den r x = den r' x) /\ (forall x, den v x = den v' x) /\ peek_pivot r = peek_pivot r'
    | NoFuel, NoFuel => True
    | _, _ => False
    end.

  Lemma gen_loop_sim fuel : forall (r : bhcol HI F C K) (r' : bhcol HI' F C K) (v : bhcol HI unit_ord C K) (v' : bhcol HI' unit_ord C K),
    wfc phi r -> wfc phi r' -> wfc triv v -> wfc triv v' ->
    (forall x, den r x = den r' x) -> (forall x, den v x = den v' x) ->
    sim_res (gen_loop HI fuel fR fV low r v) (gen_loop HI' fuel fR' fV' low r' v').
  Proof.
    induction fuel as [|fuel IH]; intros r r' v v' Wr Wr' Wv Wv' Er Ev; [exact I|]. simpl.
    destruct (clone_pivot_spec Wr) as (o & r1 & -> & Hw1 & Hd1 & Hpeek & _ & h1 & Ep).
    destruct (clone_pivot_spec Wr') as (o' & r1' & -> & Hw1' & Hd1' & Hpeek' & _ & h1' & Ep').
    assert (Eo : o' = o).
    { destruct (pop_pivot_det Wr Wr' Er) as (o2 & a & b & E1 & E2 & _). congruence. }
    rewrite Eo in Hpeek' |- *. clear Eo Ep'. simpl.
    assert (Hd : forall x, den r1 x = den r1' x) by (intros x; rewrite Hd1, Hd1'; auto).
    destruct o as [p|]; [|simpl; refine (conj Hw1 (conj Hw1' (conj Wv (conj Wv' (conj Hd (conj Ev _)))))); congruence].
    destruct (map_get (e_row p) low) as [[j k]|] eqn:Eg; [|simpl; refine (conj Hw1 (conj Hw1' (conj Wv (conj Wv' (conj Hd (conj Ev _)))))); congruence].
    destruct (Hf _ Eg) as ((es & es' & -> & -> & We & We' & Ee) & (vs & vs' & -> & -> & Wvs & Wvs' & Evs)).
    simpl. apply IH; try (apply wfc_add_entries; auto; apply wfe_scale; auto).
    - intros x. rewrite !den_add_entries, !coef_tag_scale, Ee, Hd. reflexivity.
    - intros x. rewrite !den_add_entries, !coef_tag_scale, Evs, Ev. reflexivity.
  Qed.
End GenSim2.
