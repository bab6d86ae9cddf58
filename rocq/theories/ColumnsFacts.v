(** Facts about [Columns]: what a [BHCol] denotes, and what the pivot
    operations do to the denotation. *)
From Verif Require Import Base Fields Spec LinAlg Columns.
From Coq Require Import Ring Field.
Set Implicit Arguments.

Section Facts.
  Context {HI : heaps} {F R : ordT} {K : coeffT} (phi : R -> F).
  Add Field KFC : (F_field K).
  Implicit Types (h : bhcol HI F R K) (e : entry F R K).

  (** the linear combination represented by a column *)
  Definition den h : vec K R := coef (map e_term (elems h)).
  (** stored filtration values are those of the rows *)
  Definition wfc h : Prop := forall e, In e (elems h) -> e_fil e = phi (e_row e).
  Definition wfe (l : list (entry F R K)) : Prop := forall e, In e l -> e_fil e = phi (e_row e).

  Lemma entry_cmp_row e e' : e_fil e = phi (e_row e) -> e_fil e' = phi (e_row e') ->
    entry_cmp e e' = @cmp (row_ord phi) (e_row e) (e_row e').
  Proof. intros H1 H2. unfold entry_cmp. rewrite H1, H2. reflexivity. Qed.

  Lemma elems_add_entry h e : Permutation (elems (add_entry h e)) (e :: elems h).
  Proof. apply hp_elems_push. Qed.

  Lemma elems_add_entries h es : Permutation (elems (add_entries h es)) (es ++ elems h).
  Proof.
    unfold add_entries. revert h. induction es as [|e es IH]; intros h; simpl; auto.
    rewrite IH, elems_add_entry. symmetry. apply Permutation_middle.
  Qed.

  Lemma elems_empty : elems (empty_bhcol HI F R K) = [].
  Proof. apply hp_elems_empty. Qed.

  Lemma den_empty r : den (empty_bhcol HI F R K) r = f0.
  Proof. unfold den. now rewrite elems_empty. Qed.

  Lemma den_add_entry h e r :
    den (add_entry h e) r = fadd (if oeqb (e_row e) r then Some (e_coeff e) else f0) (den h r).
  Proof.
    unfold den. rewrite (coef_perm _ (Permutation_map e_term (elems_add_entry h e))).
    simpl. destruct (oeqb (e_row e) r); ring.
  Qed.

  Lemma den_add_entries h es r :
    den (add_entries h es) r = fadd (coef (map e_term es) r) (den h r).
  Proof.
    unfold den. rewrite (coef_perm _ (Permutation_map e_term (elems_add_entries h es))).
    now rewrite map_app, coef_app.
  Qed.

  Lemma wfc_empty : wfc (empty_bhcol HI F R K).
  Proof. intros e. rewrite elems_empty. intros []. Qed.

  Lemma wfc_add_entry h e : wfc h -> e_fil e = phi (e_row e) -> wfc (add_entry h e).
  Proof.
    intros H He e' H'. apply (Permutation_in _ (elems_add_entry h e)) in H'.
    destruct H' as [<-|H']; auto.
  Qed.

  Lemma wfc_add_entries h es : wfc h -> wfe es -> wfc (add_entries h es).
  Proof.
    intros H He e' H'. apply (Permutation_in _ (elems_add_entries h es)) in H'.
    apply in_app_iff in H'. destruct H'; auto.
  Qed.

  Lemma den_support h r : den h r <> f0 -> exists e, In e (elems h) /\ e_row e = r.
  Proof.
    intros H. apply coef_in in H. destruct H as [c Hc]. apply in_map_iff in Hc.
    destruct Hc as (e & [= _ E] & Hin). eauto.
  Qed.

  (** facts about one heap pop on a well-formed column *)
  Lemma pop_some h e h' : wfc h -> hp_pop (HI F R K) h = Some (e, h') ->
    wfc h' /\ e_fil e = phi (e_row e) /\ In e (elems h) /\
    (forall e', In e' (elems h) -> row_le phi (e_row e') (e_row e)) /\
    length (elems h) = S (length (elems h')) /\
    (forall r, den h r = fadd (if oeqb (e_row e) r then Some (e_coeff e) else f0) (den h' r)).
  Proof.
    intros Hw Hp. apply hp_pop_some in Hp. destruct Hp as [Hp Hm].
    change (Permutation (elems h) (e :: elems h')) in Hp.
    assert (He : In e (elems h)) by (apply (Permutation_in _ (Permutation_sym Hp)); simpl; auto).
    refine (conj _ (conj (Hw _ He) (conj He (conj _ (conj _ _))))).
    - intros e' H'. apply Hw. apply (Permutation_in _ (Permutation_sym Hp)); simpl; auto.
    - intros e' H'. apply row_le_ord. intros E. apply (Hm e' H').
      now rewrite entry_cmp_row by auto.
    - now rewrite (Permutation_length Hp).
    - intros r. unfold den. rewrite (coef_perm _ (Permutation_map e_term Hp)). simpl.
      destruct (oeqb (e_row e) r); ring.
  Qed.

  Lemma pop_none h : hp_pop (HI F R K) h = None -> elems h = [].
  Proof. apply hp_pop_none. Qed.

  (** result of a pivot extraction from a column denoting [d] *)
  Definition pivot_result (d : vec K R) (n : nat) (o : option (entry F R K)) h' : Prop :=
    wfc h' /\
    match o with
    | None => vzero d /\ elems h' = []
    | Some p =>
        e_fil p = phi (e_row p) /\ d (e_row p) = Some (e_coeff p) /\ leading phi d (e_row p) /\
        (forall r, den h' r = if oeqb (e_row p) r then f0 else d r) /\
        (forall e, In e (elems h') -> row_lt phi (e_row e) (e_row p)) /\
        length (elems h') < n
    end.

  Lemma pop_loop_spec (d : vec K R) fuel n h wi ws wf :
    wfc h -> wf = phi wi -> length (elems h) < fuel -> length (elems h) < n ->
    (forall e, In e (elems h) -> row_le phi (e_row e) wi) ->
    (forall r, d r = fadd (if oeqb wi r then ws else f0) (den h r)) ->
    exists o h', pop_loop fuel h wi ws wf = Ok (o, h') /\ pivot_result d n o h'.
  Proof.
    revert h wi ws wf. induction fuel as [|fuel IH]; intros h wi ws wf Hw Hwf Hfuel Hn Hle Hd; [lia|].
    simpl. rewrite hp_peek_pop. destruct (hp_pop (HI F R K) h) as [[e h']|] eqn:Ep; simpl.
    - destruct (pop_some Hw Ep) as (Hw' & Hfe & Hin & Hmax & Hlen & Hden).
      assert (Hle' : forall e', In e' (elems h') -> row_le phi (e_row e') (e_row e)).
      { intros e' H'. apply Hmax. apply hp_pop_some in Ep. destruct Ep as [Hp _].
        apply (Permutation_in _ (Permutation_sym Hp)). simpl; auto. }
      destruct (oeqb_spec (e_row e) wi) as [Ee|Ee]; simpl.
      + destruct (IH h' wi (add_opt k_add (e_coeff e) ws) wf) as (o & h'' & -> & Hr); auto; try lia.
        * now rewrite <- Ee.
        * intros r. rewrite Hd, Hden, Ee, add_opt_f. destruct (oeqb wi r); ring.
        * eauto.
      + assert (Hlt : row_lt phi (e_row e) wi).
        { destruct (Hle e Hin); auto. congruence. }
        destruct ws as [s|]; simpl.
        * assert (Hdz : forall r, row_le phi wi r -> den h r = f0).
          { intros r Hr. destruct (fscalar_dec (den h r)) as [|Hz]; auto.
            apply den_support in Hz. destruct Hz as (e' & Hin' & E'). exfalso.
            apply (@row_lt_irrefl _ _ phi r). eapply row_lt_le_trans; [|exact Hr].
            eapply row_le_lt_trans; [|exact Hlt]. rewrite <- E'. auto. }
          do 2 eexists. split; [reflexivity|]. split; auto. simpl.
          assert (Hdw : d wi = Some s).
          { rewrite Hd, oeqb_refl, Hdz by apply row_le_refl. ring. }
          refine (conj Hwf (conj Hdw (conj (conj _ _) (conj _ (conj _ Hn))))).
          -- rewrite Hdw. discriminate.
          -- intros r Hr. rewrite Hd, Hdz by now left.
             assert (E : oeqb wi r = false) by (apply oeqb_neq; eauto using row_lt_ne).
             rewrite E. ring.
          -- intros r. rewrite Hd. destruct (oeqb_spec wi r) as [<-|]; [|ring].
             apply Hdz, row_le_refl.
          -- intros e' H'. exact (row_le_lt_trans (Hmax _ H') Hlt).
        * destruct (IH h' (e_row e) (add_opt k_add (e_coeff e) f0) (e_fil e))
            as (o & h'' & E & Hr); auto; try lia.
          -- intros r. rewrite Hd, Hden, add_opt_f. change (@None K) with (@f0 K). destruct (oeqb wi r), (oeqb (e_row e) r); ring.
          -- eauto.
    - apply pop_none in Ep. do 2 eexists. split; [reflexivity|]. split; auto.
      assert (Hdz : forall r, den h r = f0) by (intros r; unfold den; now rewrite Ep).
      destruct ws as [s|]; simpl.
      + assert (Hdw : d wi = Some s) by (rewrite Hd, oeqb_refl, Hdz; ring).
        refine (conj Hwf (conj Hdw (conj (conj _ _) (conj _ (conj _ _))))).
        * rewrite Hdw. discriminate.
        * intros r Hr. rewrite Hd, Hdz.
          assert (E : oeqb wi r = false) by (apply oeqb_neq; eauto using row_lt_ne).
          rewrite E. ring.
        * intros r. rewrite Hd, !Hdz. destruct (oeqb wi r); ring.
        * rewrite Ep. intros e [].
        * lia.
      + split; auto. intros r. rewrite Hd, Hdz. change (@None K) with (@f0 K); destruct (oeqb wi r); ring.
  Qed.

  (** [pop_pivot] on a well-formed column *)
  Lemma pop_pivot_spec h : wfc h ->
    exists o h', pop_pivot h = Ok (o, h') /\ pivot_result (den h) (length (elems h)) o h'.
  Proof.
    intros Hw. unfold pop_pivot. destruct (hp_pop (HI F R K) h) as [[e h1]|] eqn:Ep.
    - destruct (pop_some Hw Ep) as (Hw' & Hfe & Hin & Hmax & Hlen & Hden).
      apply pop_loop_spec; auto; try lia.
      intros e' H'. apply Hmax. apply hp_pop_some in Ep. destruct Ep as [Hp _].
      apply (Permutation_in _ (Permutation_sym Hp)). simpl; auto.
    - apply pop_none in Ep. do 2 eexists. split; [reflexivity|]. split; auto. split; auto.
      intros r. unfold den. now rewrite Ep.
  Qed.

  Lemma pivot_none_iff d n o h' : pivot_result d n o h' -> (o = None <-> vzero d).
  Proof.
    intros [_ H]. destruct o as [p|]; split; auto; try discriminate.
    - intros Hz. destruct H as (_ & H & _). rewrite Hz in H. discriminate.
    - tauto.
  Qed.

  (** ** Canonical lists of entries *)
  Fixpoint desc (l : list (entry F R K)) : Prop :=
    match l with
    | [] => True
    | e :: t => (forall e', In e' t -> row_lt phi (e_row e') (e_row e)) /\ desc t
    end.

  Lemma drain_loop_spec fuel h : wfc h -> length (elems h) < fuel ->
    exists es h', drain_loop fuel h = Ok (es, h') /\ elems h' = [] /\ wfe es /\ desc es /\
      (forall r, coef (map e_term es) r = den h r) /\
      (forall e, In e es -> den h (e_row e) = Some (e_coeff e)) /\
      length es <= length (elems h).
  Proof.
    revert h. induction fuel as [|fuel IH]; intros h Hw Hf; [lia|]. simpl.
    destruct (pop_pivot_spec Hw) as (o & h' & -> & Hw' & Hr). simpl.
    destruct o as [p|].
    - destruct Hr as (Hfp & Hdp & Hlead & Hden & Hlt & Hlen).
      destruct (IH h') as (es & h'' & -> & He & Hwe & Hdesc & Hco & Hin & Hl); auto; [lia|].
      simpl. exists (p :: es), h''.
      assert (Hes : forall e, In e es -> row_lt phi (e_row e) (e_row p)).
      { intros e Hin'. assert (Hne : den h' (e_row e) <> f0) by (rewrite (Hin _ Hin'); discriminate).
        apply den_support in Hne. destruct Hne as (e' & H1 & <-). auto. }
      refine (conj eq_refl (conj He (conj _ (conj (conj Hes Hdesc) (conj _ (conj _ _)))))).
      + intros e [<-|H]; auto.
      + intros r. simpl. destruct (oeqb_spec (e_row p) r) as [<-|Hne].
        * rewrite Hco, Hden, oeqb_refl, Hdp. ring.
        * rewrite Hco, Hden. apply oeqb_neq in Hne. now rewrite Hne.
      + intros e [<-|H]; auto. rewrite <- (Hin e H), Hden.
        assert (E : oeqb (e_row p) (e_row e) = false).
        { apply oeqb_neq. intros E. apply (row_lt_ne (Hes e H)). auto. }
        now rewrite E.
      + simpl. lia.
    - destruct Hr as [Hz He]. exists [], h'.
      refine (conj eq_refl (conj He (conj _ (conj I (conj _ (conj _ _)))))).
      + intros e [].
      + intros r. symmetry. apply Hz.
      + intros e [].
      + simpl. lia.
  Qed.

  Lemma drain_sorted_spec h : wfc h ->
    exists es h', drain_sorted h = Ok (es, h') /\ elems h' = [] /\ wfe es /\ desc es /\
      (forall r, coef (map e_term es) r = den h r) /\
      (forall e, In e es -> den h (e_row e) = Some (e_coeff e)).
  Proof.
    intros Hw. destruct (@drain_loop_spec (S (length (elems h))) h Hw) as (es & h' & H); [lia|].
    exists es, h'. unfold drain_sorted. tauto.
  Qed.

  Lemma desc_nodup es : desc es -> NoDup (map e_row es).
  Proof.
    induction es as [|e es IH]; simpl; intros H; constructor.
    - intros Hin. apply in_map_iff in Hin. destruct Hin as (e' & E & Hin).
      destruct H as [H _]. apply (row_lt_ne (H e' Hin)). auto.
    - apply IH. tauto.
  Qed.

  (** canonical lists are determined by what they denote *)
  Lemma desc_unique es es' : wfe es -> wfe es' -> desc es -> desc es' ->
    (forall r, coef (map e_term es) r = coef (map e_term es') r) -> es = es'.
  Proof.
    revert es'. induction es as [|e es IH]; intros es' Hw Hw' Hd Hd' Hc.
    - destruct es' as [|e' es']; auto. exfalso.
      assert (Hx : coef (map e_term (e' :: es')) (e_row e') = Some (e_coeff e')).
      { apply coef_nodup; [|left; reflexivity]. rewrite map_map. simpl. apply (desc_nodup _ Hd'). }
      rewrite <- Hc in Hx. discriminate.
    - assert (Hx : coef (map e_term (e :: es)) (e_row e) = Some (e_coeff e)).
      { apply coef_nodup; [|left; reflexivity]. rewrite map_map. simpl. apply (desc_nodup _ Hd). }
      destruct es' as [|e' es']; [rewrite Hc in Hx; discriminate|].
      assert (Hx' : coef (map e_term (e' :: es')) (e_row e') = Some (e_coeff e')).
      { apply coef_nodup; [|left; reflexivity]. rewrite map_map. simpl. apply (desc_nodup _ Hd'). }
      assert (Hlead : forall e es, wfe (e :: es) -> desc (e :: es) ->
                forall r, row_lt phi (e_row e) r -> coef (map e_term (e :: es)) r = f0).
      { clear. intros e es Hw [Hd _] r Hr. apply coef_notin. intros c Hin.
        apply in_map_iff in Hin. destruct Hin as (x & [= _ <-] & [<-|Hin]).
        - eapply row_lt_irrefl; eauto.
        - eapply row_lt_irrefl, row_lt_trans; eauto. }
      assert (Er : e_row e = e_row e').
      { destruct (row_lt_total phi (e_row e) (e_row e')) as [H|[H|H]]; auto; exfalso.
        - rewrite <- Hc, (Hlead e es) in Hx' by auto. discriminate.
        - rewrite Hc, (Hlead e' es') in Hx by auto. discriminate. }
      assert (Ec : e_coeff e = e_coeff e').
      { rewrite Hc, Er, Hx' in Hx. congruence. }
      assert (Ef : e_fil e = e_fil e').
      { rewrite (Hw e), (Hw' e'), Er; simpl; auto. }
      assert (e = e') by (destruct e, e'; simpl in *; congruence). subst e'.
      f_equal. apply IH.
      + intros x Hx0. apply Hw; simpl; auto.
      + intros x Hx0. apply Hw'; simpl; auto.
      + apply Hd.
      + apply Hd'.
      + intros r. specialize (Hc r). simpl in Hc.
        destruct (oeqb_spec (e_row e) r) as [E|E]; auto.
        rewrite !coef_notin; auto; intros c Hin; apply in_map_iff in Hin;
          destruct Hin as (x & [= _ <-] & Hin).
        * destruct Hd' as [Hd' _]. apply (row_lt_ne (Hd' x Hin)). auto.
        * destruct Hd as [Hd _]. apply (row_lt_ne (Hd x Hin)). auto.
  Qed.

  (** [clone_pivot] *)
  Lemma clone_pivot_spec h : wfc h ->
    exists o h', clone_pivot h = Ok (o, h') /\ wfc h' /\ (forall r, den h' r = den h r) /\
      peek_pivot h' = o /\
      match o with
      | None => vzero (den h)
      | Some p => e_fil p = phi (e_row p) /\ den h (e_row p) = Some (e_coeff p) /\
                  leading phi (den h) (e_row p)
      end /\
      (exists h'', pop_pivot h = Ok (o, h'')).
  Proof.
    intros Hw. unfold clone_pivot.
    destruct (pop_pivot_spec Hw) as (o & h' & -> & Hw' & Hr). simpl.
    destruct o as [p|].
    - destruct Hr as (Hfp & Hdp & Hlead & Hden & Hlt & Hlen).
      assert (Hw2 : wfc (add_entry h' p)) by (apply wfc_add_entry; auto).
      exists (Some p), (add_entry h' p). refine (conj eq_refl (conj Hw2 (conj _ (conj _ (conj _ _))))); eauto.
      + intros r. rewrite den_add_entry, Hden.
        destruct (oeqb_spec (e_row p) r) as [<-|]; [rewrite Hdp|]; ring.
      + unfold peek_pivot. rewrite hp_peek_pop.
        destruct (hp_pop (HI F R K) (add_entry h' p)) as [[e h'']|] eqn:Ep; simpl.
        * destruct (pop_some Hw2 Ep) as (_ & _ & Hin & Hmax & _).
          apply (Permutation_in _ (elems_add_entry h' p)) in Hin.
          destruct Hin as [->|Hin]; auto. exfalso.
          apply (@row_lt_irrefl _ _ phi (e_row e)). eapply row_lt_le_trans; [apply Hlt; exact Hin|].
          apply Hmax. apply (Permutation_in _ (Permutation_sym (elems_add_entry h' p))). simpl; auto.
        * apply pop_none in Ep. pose proof (elems_add_entry h' p) as Hp. rewrite Ep in Hp.
          apply Permutation_nil in Hp. discriminate.
    - destruct Hr as [Hz He]. exists None, h'. refine (conj eq_refl (conj Hw' (conj _ (conj _ (conj Hz _))))); eauto.
      + intros r. unfold den at 1. rewrite He. symmetry. apply Hz.
      + unfold peek_pivot. rewrite hp_peek_pop.
        destruct (hp_pop (HI F R K) h') as [[e h'']|] eqn:Ep; auto. exfalso.
        destruct (pop_some Hw' Ep) as (_ & _ & Hin & _). rewrite He in Hin. destruct Hin.
  Qed.
End Facts.
