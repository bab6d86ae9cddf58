(** The clearing algorithm needs no order on its basis to return: termination and absence of panics without the hypothesis that the blocks
    are listed in row order, and what is then still true of the diagram. *)
From Verif Require Import Base Fields Spec LinAlg Columns ColumnsFacts Matrices SpecMat MatricesFacts Reduction LoopProofs StandardProofs ReadOffProofs Graded ClearingProofs.
From Coq Require Import Ring Field Sorted.
Set Implicit Arguments.

Section Total.
  Variable HI : heaps.
  Context {K : coeffT} {C F : ordT}.
  Add Field KFT : (F_field K).
  Variables (phi : C -> F) (D : fmatrix K C C F) (sb : split_basis C) (dims : list nat) (blocks : list (list C)).
  Hypothesis HB : block_shape phi D sb dims blocks.
  Let l := concat blocks.
  Let Dm := mden (m_col D).
  Let Hl : NoDup l. Proof. apply HB. Qed.
  Let HD : forall c, In c l -> coherent_at phi D c. Proof. apply HB. Qed.
  Let Hfr : forall pre blk post, blocks = pre ++ blk :: post -> forall c r, In c blk -> Dm c r <> f0 ->
    ~ In r (concat pre ++ blk) /\ forall c', In c' (concat pre) -> Dm c' r = f0.
  Proof. apply HB. Qed.

  Definition rtab (rc : @rc_map K C) (j : C) : vec K C :=
    match map_get j rc with Some (Reduced t) => lincomb l (coef (t ++ [(k_one, j)])) Dm | _ => fun _ => f0 end.
  Lemma rtab_eq rc j t : map_get j rc = Some (Reduced t) -> rtab rc j = lincomb l (coef (t ++ [(k_one, j)])) Dm.
  Proof. unfold rtab. now intros ->. Qed.

  Definition tinv (pre : list (list C)) (P blk : list C) (bd : @builder K C) (low : @low_map K C) : Prop :=
    let done := concat pre ++ P in let rc := bd_rc bd in let ps := pairings (bd_dgm bd) in let es := essential (bd_dgm bd) in
    (forall c t, map_get c rc = Some (Reduced t) -> In c done /\ forall k x, In (k, x) t -> In x l) /\
    (forall i j k, map_get i low = Some (j, k) -> In j P /\ leading phi (rtab rc j) i /\ rtab rc j i = Some k /\
       exists t, map_get j rc = Some (Reduced t) /\ forall k x, In (k, x) t -> In x blk) /\
    (forall i j, map_get i rc = Some (Cleared j) <-> In (i, j) ps) /\
    (forall i j, In (i, j) ps -> (exists t, map_get j rc = Some (Reduced t)) /\ leading phi (rtab rc j) i /\
       ((exists x, In x (concat pre) /\ Dm x i <> f0) \/ exists k, map_get i low = Some (j, k))) /\
    (forall c, In c es -> (exists t, map_get c rc = Some (Reduced t)) /\ vzero (rtab rc c)) /\
    (forall c, In c done -> In c (es ++ map fst ps ++ map snd ps)) /\
    NoDup (es ++ map fst ps ++ map snd ps).

  Lemma total_step fuel pre blk post P c P2 bd low sub :
    blocks = pre ++ blk :: post -> blk = P ++ c :: P2 -> enumerates sub blk ->
    length (row_set (m_col D) l) < fuel -> tinv pre P blk bd low ->
    exists bd' low', clear_step HI fuel D sub (bd, low) (length P) = Ok (bd', low') /\ tinv pre (P ++ [c]) blk bd' low'.
  Proof.
    intros E Eb Hen Hfuel (T1 & T2 & T3 & T4 & T5 & T6 & T7). unfold clear_step.
    set (rc := bd_rc bd) in *. set (done := concat pre ++ P) in *. set (ps := pairings (bd_dgm bd)) in *. set (es := essential (bd_dgm bd)) in *.
    assert (Ee : b_elem sub (length P) = Ok c) by (apply Hen; rewrite Eb, nth_error_app2, Nat.sub_diag; auto).
    rewrite Ee. cbn [bind]. fold rc.
    assert (Hbl : incl blk l) by (intros x Hx; unfold l; rewrite E, concat_app; simpl; rewrite !in_app_iff; auto).
    assert (Hcb : In c blk) by (rewrite Eb; apply in_app_iff; simpl; auto).
    assert (Hcl : In c l) by auto.
    assert (Hcd : ~ In c done).
    { intros H. pose proof Hl as Hn. unfold l in Hn. rewrite E, concat_app in Hn. simpl in Hn. rewrite Eb, <- app_assoc in Hn.
      assert (Hn' : NoDup (done ++ c :: P2 ++ concat post)) by (unfold done; rewrite <- app_assoc; exact Hn).
      apply NoDup_remove_2 in Hn'. apply Hn'. apply in_app_iff; auto. }
    assert (Hdone' : concat pre ++ (P ++ [c]) = done ++ [c]) by (unfold done; now rewrite app_assoc).
    assert (Hdb : forall x, In x done -> In x (concat pre ++ blk)).
    { intros x Hx. unfold done in Hx. apply in_app_iff in Hx. apply in_app_iff. destruct Hx as [|Hx]; auto. right. rewrite Eb. apply in_app_iff; auto. }
    destruct (map_mem c rc) eqn:Em.
    - exists bd, low. split; [reflexivity|]. unfold tinv. fold rc ps es. rewrite Hdone'.
      assert (Hex : exists j, In (c, j) ps).
      { unfold map_mem in Em. destruct (map_get c rc) as [[j|t]|] eqn:Eg; [exists j; now apply T3| |discriminate]. exfalso. apply Hcd. apply (T1 _ _ Eg). }
      destruct Hex as (j0 & Hj0).
      split; [intros x t Hx; destruct (T1 _ _ Hx); split; auto; apply in_app_iff; auto|].
      split; [intros i j k Hi; destruct (T2 _ _ _ Hi) as (A & B); split; auto; apply in_app_iff; auto|].
      split; auto. split; auto. split; auto. split; auto.
      intros x Hx. apply in_app_iff in Hx. destruct Hx as [Hx|[<-|[]]]; auto. rewrite !in_app_iff. right. left. apply in_map_iff. exists (c, j0). auto.
    - assert (Hcn : map_get c rc = None) by (unfold map_mem in Em; destruct (map_get c rc); [discriminate|auto]).
      destruct (build_bhcol_spec HI (HD _ Hcl)) as (r0 & E0 & Wr0 & Dr0). rewrite E0. cbn [bind].
      rewrite reduce_column_gen.
      pose (vtab := fun j : C => match map_get j rc with Some (Reduced t) => coef (t ++ [(k_one, j)]) | _ => fun _ => f0 end : vec K C).
      destruct (@gen_loop_spec HI K C F phi (m_colf (product_f (by_ref D) (crm_column (m_col D) rc)))
          (m_colf (with_trivial_filtration (crm_column (m_col D) rc))) low (row_set (m_col D) l) (rtab rc) vtab)
        with (fuel := fuel) (r_i := r0) (v_i := empty_bhcol HI unit_ord C K) (S' := row_set (m_col D) l)
        as (r' & v' & -> & steps & Q1 & Q2 & Q3 & Q4 & Q5 & Q6 & Q7); auto.
      { intros i j k Hg. destruct (T2 _ _ _ Hg) as (Hj & Hlead & Hk & t & Et & Ht).
        assert (Ec : crm_column (m_col D) rc j = Ok (t ++ [(k_one, j)])) by (apply vcol_crm; left; eauto).
        assert (Hin : forall k x, In (k, x) (t ++ [(k_one, j)]) -> In x l).
        { intros k' x Hx. apply in_app_iff in Hx. destruct Hx as [Hx|[[= _ <-]|[]]]; [eauto|]. apply Hbl. rewrite Eb. apply in_app_iff; auto. }
        refine (conj Hlead (conj Hk (conj _ (conj _ _)))).
        - intros r Hr. rewrite (rtab_eq _ _ Et) in Hr. eapply lincomb_row_set; eauto.
        - destruct (@product_f_ok K C C C F phi (by_ref D) (crm_column (m_col D) rc) j _ Ec) as (fs & E1 & E2 & E3).
          + intros k' x Hx. apply coherent_by_ref. eauto.
          + exists fs. split; auto. split; auto. intros r. rewrite E3, (rtab_eq _ _ Et).
            change (m_col (by_ref D)) with (m_col D). rewrite (@coef_combine K C C _ (mden (m_col D)) l r); eauto.
        - exists (tag (F:=unit_ord) triv (t ++ [(k_one, j)])). split; [|split].
          + simpl. apply default_colf_ok; auto.
          + apply tag_wfe.
          + intros r. rewrite tag_terms. unfold vtab. now rewrite Et. }
      { apply wfc_empty. }
      { intros r Hr. rewrite Dr0 in Hr. eapply mden_row_set; eauto. }
      { intros r Hr. exact Hr. }
      cbn [bind]. unfold save_column. fold rc ps es.
      assert (Hsteps : forall m j, In (m, j) steps -> exists t, map_get j rc = Some (Reduced t) /\ In j P /\ forall k x, In (k, x) t -> In x blk).
      { intros m j Hin. destruct (Q1 m j Hin) as (i & k & Hg & _). destruct (T2 _ _ _ Hg) as (A & _ & _ & t & B & B'). eauto. }
      destruct (drain_sorted_spec Q5) as (fs & v2 & Edr & _ & We & De & Ce & Ne).
      set (lv := map e_term fs).
      assert (Hlv : forall x, coef (lv ++ [(k_one, c)]) x = fadd (den v' x) (if oeqb c x then f1 else f0)).
      { intros x. rewrite coef_app. unfold lv. rewrite Ce. simpl. destruct (oeqb c x); auto. }
      assert (Hlb : forall k x, In (k, x) lv -> In x blk).
      { intros k x Hin. unfold lv in Hin. apply in_map_iff in Hin. destruct Hin as (e & Ee' & He). unfold e_term in Ee'. injection Ee' as _ <-. specialize (Ne e He).
        assert (Hn : den v' (e_row e) <> f0) by (rewrite Ne; discriminate). rewrite Q3, den_empty in Hn.
        destruct (in_dec ord_eq_dec (e_row e) blk) as [|Hno]; auto. exfalso. apply Hn. rewrite vsum_0; [ring|].
        intros [m j] Hs. simpl. destruct (Hsteps _ _ Hs) as (t & Et & Hj & Ht). assert (Ev : vtab j = coef (t ++ [(k_one, j)])) by (unfold vtab; now rewrite Et). rewrite Ev.
        destruct (fscalar_dec (coef (t ++ [(k_one, j)]) (e_row e))) as [->|Hc]; [ring|]. exfalso. apply coef_in in Hc. destruct Hc as [k' Hk].
        apply in_app_iff in Hk. destruct Hk as [Hk|[Hk|[]]]; [eauto|]. injection Hk as _ Hk. rewrite <- Hk in Hno. apply Hno. rewrite Eb. apply in_app_iff; auto. }
      assert (Hrv : forall r, den r' r = lincomb l (coef (lv ++ [(k_one, c)])) Dm r).
      { intros r. rewrite Q2, Dr0.
        transitivity (lincomb l (fun x => fadd (if oeqb c x then f1 else f0)
                        (vsum steps (fun p => fmul (Some (fst p)) (vtab (snd p) x)))) Dm r).
        - rewrite lincomb_add, lincomb_unit by auto. f_equal.
          transitivity (vsum steps (fun p => fmul (Some (fst p)) (lincomb l (vtab (snd p)) Dm r))).
          { apply vsum_ext. intros [m j] Hin. destruct (Hsteps _ _ Hin) as (t & Et & _). cbn [fst snd]. rewrite (rtab_eq _ _ Et). unfold vtab. rewrite Et. reflexivity. }
          symmetry. unfold lincomb.
          transitivity (vsum l (fun x => vsum steps (fun p => fmul (fmul (Some (fst p)) (vtab (snd p) x)) (Dm x r)))).
          + apply vsum_ext. intros x _. destruct (F_ring K). rewrite Rmul_comm, <- vsum_mul_l.
            apply vsum_ext. intros p _. rewrite Rmul_comm. reflexivity.
          + rewrite vsum_swap. apply vsum_ext. intros p _. rewrite <- vsum_mul_l. apply vsum_ext.
            intros x _. destruct (F_ring K). now rewrite Rmul_assoc.
        - apply lincomb_ext; auto. intros x _. rewrite Hlv, Q3, den_empty. ring. }
      assert (Hsup : forall r, den r' r <> f0 -> exists x, In x blk /\ Dm x r <> f0).
      { intros r Hr. rewrite Hrv in Hr. apply lincomb_nonzero in Hr. destruct Hr as (x & _ & Hx & Hn).
        apply coef_in in Hx. destruct Hx as [k Hk]. apply in_app_iff in Hk. exists x. split; auto. destruct Hk as [Hk|[[= _ <-]|[]]]; eauto. }
      assert (Hpk : forall p, peek_pivot r' = Some p -> leading phi (den r') (e_row p) /\ den r' (e_row p) = Some (e_coeff p) /\
                 map_get (e_row p) low = None /\ map_get (e_row p) rc = None /\ e_row p <> c /\ ~ In (e_row p) done /\ ~ In (e_row p) (map fst ps)).
      { intros p Hp. destruct Q7 as [[_ H]|(p' & Hp' & _ & H1 & H2 & H3)]; [congruence|]. rewrite Hp in Hp'. injection Hp' as <-.
        destruct (Hsup (e_row p)) as (x & Hx & Hn); [apply H1|]. destruct (Hfr _ _ _ E _ _ Hx Hn) as [F1 F2].
        assert (Hps : forall j, ~ In (e_row p, j) ps).
        { intros j Hj. destruct (T4 _ _ Hj) as (_ & _ & [(y & Hy & Hny)|(k & Hk)]); [apply Hny; auto|congruence]. }
        refine (conj H1 (conj H2 (conj H3 (conj _ (conj _ (conj _ _)))))).
        - destruct (map_get (e_row p) rc) as [[j|t]|] eqn:Eg; auto; exfalso; [apply T3 in Eg; now apply Hps in Eg|]. apply F1, Hdb. apply (T1 _ _ Eg).
        - intros Epc. apply F1. rewrite Epc. apply in_app_iff; auto.
        - intros H. apply F1, Hdb, H.
        - intros H. apply in_map_iff in H. destruct H as ([i j] & Ei & Hi). cbn [fst] in Ei. subst i. now apply Hps in Hi. }
      assert (Hpn : peek_pivot r' = None -> vzero (den r')).
      { intros Hp. destruct Q7 as [[H _]|(p' & Hp' & _)]; [auto|congruence]. }
      set (rc1 := match peek_pivot r' with Some p => map_insert (e_row p) (Cleared c) rc | None => rc end).
      set (rcn := map_insert c (Reduced lv) rc1).
      set (dg := match peek_pivot r' with
        | Some p => Diagram es (@set_insert (pair_ord C C) (e_row p, c) ps)
        | None => Diagram (set_insert c es) ps end).
      set (lown := match peek_pivot r' with Some p => map_insert (e_row p) (c, e_coeff p) low | None => low end).
      exists (Builder dg rcn), lown. split.
      { rewrite Edr. unfold dg, rcn, rc1, lown. destruct (peek_pivot r'); reflexivity. }
      assert (Hgn : forall x, map_get x rcn = if oeqb c x then Some (Reduced lv) else
                 match peek_pivot r' with Some p => if oeqb (e_row p) x then Some (Cleared c) else map_get x rc | None => map_get x rc end).
      { intros x. unfold rcn. rewrite map_get_insert. destruct (oeqb c x); auto. unfold rc1. destruct (peek_pivot r'); auto. apply map_get_insert. }
      assert (Hext : extends rc rcn).
      { intros x e Hx. rewrite Hgn. destruct (oeqb_spec c x) as [<-|]; [congruence|]. destruct (peek_pivot r') as [p|]; auto.
        destruct (oeqb_spec (e_row p) x) as [<-|]; auto. destruct (Hpk p eq_refl) as (_ & _ & _ & H & _). congruence. }
      assert (Hcr : map_get c rcn = Some (Reduced lv)) by (unfold rcn; apply map_get_insert_eq).
      assert (Hro : forall j t, map_get j rc = Some (Reduced t) -> rtab rcn j = rtab rc j).
      { intros j t Ej. unfold rtab. rewrite Ej, (Hext _ _ Ej). reflexivity. }
      assert (Hrn : forall r, rtab rcn c r = den r' r) by (intros r; rewrite (rtab_eq _ _ Hcr), Hrv; reflexivity).
      assert (Hnes : ~ In c es) by (intros H; destruct (T5 _ H) as [(t & Et) _]; congruence).
      assert (Hnfst : ~ In c (map fst ps)).
      { intros H. apply in_map_iff in H. destruct H as ([i j] & Ei & Hi). cbn [fst] in Ei. subst i. apply T3 in Hi. congruence. }
      assert (Hnsnd : forall x, map_get x rc = None -> ~ In x (map snd ps)).
      { intros x Hx H. apply in_map_iff in H. destruct H as ([i j] & Ei & Hi). cbn [snd] in Ei. subst j. apply T4 in Hi. destruct Hi as ((t & Et) & _). congruence. }
      assert (HH : forall i j, In (i, j) (pairings dg) <-> In (i, j) ps \/ exists p, peek_pivot r' = Some p /\ e_row p = i /\ j = c).
      { intros i j. unfold dg. destruct (peek_pivot r') as [p|]; cbn [pairings].
        - rewrite (@in_set_insert (pair_ord C C)). split.
          + intros [H|H]; [right; injection H as -> ->; eauto|auto].
          + intros [H|(p' & [= <-] & <- & ->)]; auto.
        - split; auto. intros [H|(p' & [=] & _)]; auto. }
      assert (HE : forall x, In x (essential dg) <-> In x es \/ (peek_pivot r' = None /\ x = c)).
      { intros x. unfold dg. destruct (peek_pivot r') as [p|]; cbn [essential].
        - split; auto. intros [H|([=] & _)]; auto.
        - rewrite in_set_insert. split; [intros [->|H]; auto|intros [H|[_ ->]]; auto]. }
      assert (HleadE : forall i j t, map_get j rc = Some (Reduced t) -> leading phi (rtab rc j) i -> leading phi (rtab rcn j) i).
      { intros i j t Ej H. now rewrite (Hro _ _ Ej). }
      unfold tinv. cbn [bd_rc bd_dgm]. rewrite Hdone'.
      split; [|split; [|split; [|split; [|split; [|split]]]]].
      + intros x t. rewrite Hgn, in_app_iff. simpl. destruct (oeqb_spec c x) as [<-|Hcx]; [intros [= <-]; split; auto; intros k x Hx; apply Hbl; eauto|].
        assert (HG : map_get x rc = Some (Reduced t) -> (In x done \/ c = x \/ False) /\ forall k y, In (k, y) t -> In y l) by (intros H; destruct (T1 _ _ H); auto).
        destruct (peek_pivot r') as [p|]; auto. destruct (oeqb (e_row p) x); auto. discriminate.
      + assert (Hold : forall i j k, map_get i low = Some (j, k) -> In j (P ++ [c]) /\ leading phi (rtab rcn j) i /\ rtab rcn j i = Some k /\
          exists t, map_get j rcn = Some (Reduced t) /\ forall k x, In (k, x) t -> In x blk).
        { intros i j k Hi. destruct (T2 _ _ _ Hi) as (A1 & A2 & A3 & t & A4 & A5). split; [apply in_app_iff; auto|]. rewrite (Hro _ _ A4). eauto 8. }
        intros i j k. unfold lown. destruct (peek_pivot r') as [p|] eqn:Ep; auto. rewrite map_get_insert. destruct (oeqb_spec (e_row p) i) as [<-|]; auto.
        intros [= <- <-]. destruct (Hpk p eq_refl) as (B1 & B2 & _). split; [apply in_app_iff; simpl; auto|]. split; [eapply leading_ext; [|exact B1]; auto|].
        split; [now rewrite Hrn|]. exists lv. split; auto.
      + intros i j. rewrite Hgn, HH. destruct (oeqb_spec c i) as [<-|Hci].
        * split; [discriminate|]. intros [H|(p & Hp & Hpc & _)]; [apply T3 in H; congruence|]. destruct (Hpk p Hp) as (_ & _ & _ & _ & H & _). congruence.
        * destruct (peek_pivot r') as [p|] eqn:Ep.
          -- destruct (oeqb_spec (e_row p) i) as [<-|Hpi].
             ++ split; [intros [= <-]; right; eauto|]. intros [H|(p' & _ & _ & ->)]; auto. exfalso. apply T3 in H. destruct (Hpk p eq_refl) as (_ & _ & _ & H' & _). congruence.
             ++ rewrite T3. split; auto. intros [H|(p' & [= <-] & H & _)]; auto. congruence.
          -- rewrite T3. split; auto. intros [H|(p' & [=] & _)]; auto.
      + intros i j Hij. apply HH in Hij. destruct Hij as [Hij|(p & Hp & <- & ->)].
        * destruct (T4 _ _ Hij) as ((t & Et) & A2 & A3). split; [exists t; auto|]. split; [eauto|]. destruct A3 as [A3|(k & Hk)]; auto. right. exists k.
          unfold lown. destruct (peek_pivot r') as [p|] eqn:Ep; auto. rewrite map_get_insert. destruct (oeqb_spec (e_row p) i) as [<-|]; auto.
          destruct (Hpk p eq_refl) as (_ & _ & H & _). congruence.
        * destruct (Hpk p Hp) as (B1 & _). split; [eauto|]. split; [eapply leading_ext; [|exact B1]; auto|]. right. exists (e_coeff p). unfold lown. rewrite Hp. apply map_get_insert_eq.
      + intros x Hx. apply HE in Hx. destruct Hx as [Hx|[Hp ->]].
        * destruct (T5 _ Hx) as [(t & Et) Hz]. split; [eauto|]. now rewrite (Hro _ _ Et).
        * split; [eauto|]. intros r. rewrite Hrn. now apply Hpn.
      + intros x Hx. rewrite !in_app_iff. rewrite in_app_iff in Hx. simpl in Hx. destruct Hx as [Hx|[<-|[]]].
        * apply T6 in Hx. rewrite !in_app_iff in Hx. destruct Hx as [Hx|[Hx|Hx]]; [left; apply HE; auto|right; left|right; right];
            apply in_map_iff in Hx; destruct Hx as ([i j] & Ei & Hi); apply in_map_iff; exists (i, j); (split; [exact Ei|apply HH; auto]).
        * destruct (peek_pivot r') as [p|] eqn:Ep; [right; right; apply in_map_iff; exists (e_row p, c); split; auto; apply HH; right; eauto|left; apply HE; auto].
      + unfold dg. destruct (peek_pivot r') as [p|] eqn:Ep; cbn [essential pairings].
        * destruct (Hpk p eq_refl) as (_ & _ & _ & B4 & B5 & B6 & B7).
          assert (Hsi : @set_insert (pair_ord C C) (e_row p, c) ps = (e_row p, c) :: ps).
          { unfold set_insert. destruct (@set_mem (pair_ord C C) (e_row p, c) ps) eqn:Es; auto. apply (@set_mem_iff (pair_ord C C)) in Es. exfalso. apply B7. apply in_map_iff. exists (e_row p, c). auto. }
          assert (Hpe : ~ In (e_row p) es).
          { intros H. destruct (T5 _ H) as [(t & Et) _]. congruence. }
          assert (Hmid : NoDup (es ++ e_row p :: map fst ps ++ c :: map snd ps)).
          { apply NoDup_Add with (a := e_row p) (l := es ++ map fst ps ++ c :: map snd ps); [apply Add_app|]. split.
            - apply NoDup_Add with (a := c) (l := es ++ map fst ps ++ map snd ps); [rewrite !app_assoc; apply Add_app|]. split; auto.
              rewrite !in_app_iff. intros [H|[H|H]]; auto. now apply (Hnsnd c) in H.
            - rewrite !in_app_iff. simpl. intros [H|[H|[H|H]]]; auto. now apply (Hnsnd (e_row p)) in H. }
          rewrite Hsi. cbn [map fst snd]. exact Hmid.
        * assert (Hsi : set_insert c es = c :: es) by (unfold set_insert; destruct (set_mem c es) eqn:Es; auto; apply set_mem_iff in Es; contradiction).
          assert (Hc3 : ~ In c (es ++ map fst ps ++ map snd ps)) by (rewrite !in_app_iff; intros [H|[H|H]]; auto; now apply (Hnsnd c) in H).
          rewrite Hsi. cbn [app]. constructor; auto.
  Qed.

  Lemma total_fold fuel pre blk post sub P2 : blocks = pre ++ blk :: post -> enumerates sub blk ->
    length (row_set (m_col D) l) < fuel ->
    forall P bd low, blk = P ++ P2 -> tinv pre P blk bd low ->
    exists bd' low', foldM (clear_step HI fuel D sub) (seq (length P) (length P2)) (bd, low) = Ok (bd', low') /\ tinv pre blk blk bd' low'.
  Proof.
    intros E Hen Hf. induction P2 as [|c P2 IH]; intros P bd low Eb Hg; cbn [length seq foldM].
    - rewrite app_nil_r in Eb. subst P. eauto.
    - destruct (@total_step fuel pre blk post P c P2 bd low sub E Eb Hen Hf Hg) as (bd1 & low1 & -> & Hg1). cbn [bind].
      destruct (IH (P ++ [c]) bd1 low1) as (bd' & low' & E' & H'); auto.
      + now rewrite <- app_assoc.
      + rewrite app_length in E'. simpl in E'. rewrite Nat.add_comm in E'. simpl in E'. eauto.
  Qed.
  Lemma tinv_next pre blk next bd low : tinv pre blk blk bd low -> tinv (pre ++ [blk]) [] next bd [].
  Proof.
    unfold tinv. cbv zeta. intros (T1 & T2 & T3 & T4 & T5 & T6 & T7). assert (Ed : concat (pre ++ [blk]) ++ [] = concat pre ++ blk) by (rewrite concat_app; simpl; now rewrite !app_nil_r).
    rewrite Ed. split; auto. split; [discriminate|]. split; auto. split; [|auto].
    intros i j Hij. destruct (T4 _ _ Hij) as (A1 & A2 & A3). split; auto. split; auto. left. rewrite app_nil_r in Ed. rewrite Ed.
    destruct A3 as [(x & Hx & Hn)|(k & Hk)]; [exists x; split; auto; apply in_app_iff; auto|].
    destruct (T2 _ _ _ Hk) as (Hj & _ & Hv & t & Et & Ht). rewrite (rtab_eq _ _ Et) in Hv.
    assert (Hn : lincomb l (coef (t ++ [(k_one, j)])) Dm i <> f0) by (rewrite Hv; discriminate). apply lincomb_nonzero in Hn. destruct Hn as (x & _ & Hx & Hn).
    exists x. split; auto. apply in_app_iff. right. apply coef_in in Hx. destruct Hx as [k' Hx]. apply in_app_iff in Hx. destruct Hx as [Hx|[Hx|[]]]; [eauto|]. injection Hx as _ <-. exact Hj.
  Qed.
  Lemma total_dims fuel ds post : Forall2 (fun d blk => exists sub, sb_dim sb d = Ok sub /\ enumerates sub blk) ds post ->
    length (row_set (m_col D) l) < fuel ->
    forall pre bd, blocks = pre ++ post -> (forall nx, tinv pre [] nx bd []) ->
    exists bd', foldM (reduce_dimension HI fuel D sb) ds bd = Ok bd' /\ tinv blocks [] [] bd' [].
  Proof.
    intros H2 Hf. induction H2 as [|d blk ds post (sub & Es & Hen) H2 IH]; intros pre bd E Hg; cbn [foldM].
    - rewrite app_nil_r in E. subst pre. eauto.
    - pose proof Hen as [Hsz Hel].
      destruct (@total_fold fuel pre blk post sub blk E Hen Hf [] bd []) as (bd1 & low1 & E1 & Hg1); auto.
      assert (E2 : reduce_dimension HI fuel D sb bd d = Ok bd1).
      { unfold reduce_dimension. rewrite Es. cbn [bind]. rewrite Hsz.
        match goal with |- bind ?m ?f = _ => change (bind m f = bind (Ok (bd1, low1)) f); f_equal end. exact E1. }
      rewrite E2. cbn [bind]. apply (IH (pre ++ [blk])); [now rewrite <- app_assoc|]. intros nx. eapply tinv_next; eauto.
  Qed.
  Theorem build_total fuel : length (row_set (m_col D) l) < fuel ->
    exists rc dg, build_with_diagram HI fuel D sb dims = Ok (rc, dg) /\
      NoDup (essential dg ++ map fst (pairings dg) ++ map snd (pairings dg)) /\
      (forall c, In c l -> In c (essential dg ++ map fst (pairings dg) ++ map snd (pairings dg))) /\
      (forall c, In c (essential dg) -> In c l /\ vzero (lincomb l (mden (crm_column (m_col D) rc) c) Dm)) /\
      (forall i j, In (i, j) (pairings dg) -> In j l /\ leading phi (lincomb l (mden (crm_column (m_col D) rc) j) Dm) i).
  Proof.
    intros Hf. unfold build_with_diagram.
    assert (H0 : forall nx, tinv [] [] nx (Builder (Diagram [] []) []) []).
    { intros nx. unfold tinv. simpl. split; [discriminate|]. split; [discriminate|]. split; [split; [discriminate|tauto]|]. repeat split; try tauto; constructor. }
    destruct HB as (_ & H2 & _).
    destruct (@total_dims fuel dims blocks H2 Hf [] _ eq_refl H0) as ([dg rc] & -> & T1 & _ & _ & T4 & T5 & T6 & T7). cbn [bind bd_rc bd_dgm] in *.
    rewrite app_nil_r in T1, T6. fold l in T1, T6. exists rc, dg. split; auto. split; auto. split; auto.
    assert (Hr : forall j t, map_get j rc = Some (Reduced t) -> forall r, rtab rc j r = lincomb l (mden (crm_column (m_col D) rc) j) Dm r).
    { intros j t Et r. rewrite (rtab_eq _ _ Et). apply lincomb_ext; auto. intros x _. symmetry. apply mden_ok. apply vcol_crm. left. eauto. }
    split.
    - intros c Hc. destruct (T5 _ Hc) as [(t & Et) Hz]. split; [apply (T1 _ _ Et)|]. intros r. rewrite <- (Hr _ _ Et). apply Hz.
    - intros i j Hij. destruct (T4 _ _ Hij) as ((t & Et) & Hlead & _). split; [apply (T1 _ _ Et)|]. eapply leading_ext; [|exact Hlead]. intros r. now apply (Hr _ t).
  Qed.
End Total.
