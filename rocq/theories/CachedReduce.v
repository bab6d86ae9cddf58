(** The reductions run on a cached matrix: same result, each column computed at most once. *)
From Verif Require Import Base Fields FieldsFacts Spec LinAlg Columns ColumnsFacts Matrices SpecMat MatricesFacts Reduction LoopProofs StandardProofs ReadOffProofs ClearingProofs StandardResults PropCache CachedRun CachedFacts.
Set Implicit Arguments.

Section Red.
  Variable HI : heaps.
  Context {K : coeffT} {C F : ordT}.
  Notation cst := (cache_state K C C).
  Variables (m : oracle K C C) (fil : C -> res F).
  Let D := fm_default m fil.

  Definition okst (s : cst) : Prop := valid m s /\ quiet s.

  Notation fil_map := (mapM (fun p : K * C => do f <- fil (snd p); Ok (entry_of_tuple (fst p, snd p, f)))).

  Lemma fil_map_scale k lc es : fil_map lc = Ok es ->
    fil_map (scaled k lc) = Ok (map (fun e => Entry (e_fil e) (e_row e) (k_mul (e_coeff e) k)) es).
  Proof.
    rewrite mapM_Ok. intros H. apply mapM_Ok. induction H as [|p e lc es H1 H2 IH]; simpl; constructor; auto. simpl.
    apply bind_Ok in H1. destruct H1 as (f & -> & [= <-]). reflexivity.
  Qed.
  Lemma fil_map_app a b ea eb : fil_map a = Ok ea -> fil_map b = Ok eb -> fil_map (a ++ b) = Ok (ea ++ eb).
  Proof. rewrite !mapM_Ok. intros. now apply Forall2_app. Qed.

  Lemma prod_colf_split l es :
    flat_mapM (fun p => do lc <- m_colf (by_ref D) (snd p);
       Ok (map (fun e => Entry (e_fil e) (e_row e) (k_mul (e_coeff e) (fst p))) lc)) l = Ok es ->
    exists r, matrix_col_product m l = Ok r /\ fil_map r = Ok es.
  Proof.
    unfold flat_mapM. intros H. apply bind_Ok in H. destruct H as (ll & H & [= <-]). revert ll H.
    induction l as [|p l IH]; intros ll H; cbn [mapM] in H.
    - injection H as <-. exists []. split; reflexivity.
    - apply bind_Ok in H. destruct H as (y & H1 & H). apply bind_Ok in H. destruct H as (ys & H2 & [= <-]).
      destruct (IH _ H2) as (r & E1 & E2). apply bind_Ok in H1. destruct H1 as (lc & H1 & [= <-]).
      cbn [by_ref fm_default m_colf m_col m_fil D] in H1. unfold default_colf in H1. apply bind_Ok in H1. destruct H1 as (l0 & H1 & H3).
      rewrite mcp_cons, H1, E1. cbn [bind]. eexists. split; [reflexivity|]. cbn [concat]. apply fil_map_app; auto. now apply fil_map_scale.
  Qed.

  Lemma collect_f_flat l es s : okst s -> (forall k x, In (k, x) l -> In x (cs_log s)) ->
    flat_mapM (fun p => do lc <- m_colf (by_ref D) (snd p);
       Ok (map (fun e => Entry (e_fil e) (e_row e) (k_mul (e_coeff e) (fst p))) lc)) l = Ok es ->
    exists s', collect_f m fil (LFlat (LVec l)) s = Ok (es, s') /\ okst s' /\ cs_log s' = cs_log s.
  Proof.
    intros [Hv Hq] Hin H. apply prod_colf_split in H. destruct H as (r & E1 & E2).
    pose proof (@collect_flat_vec K C m l s Hv Hq) as G. rewrite E1 in G. destruct G as (s' & E3 & Hv' & Hq' & Hl).
    exists s'. unfold collect_f. rewrite E3. cbn [bind]. rewrite E2. split; [reflexivity|]. split; [split; auto|]. rewrite Hl, asks_known, app_nil_r; auto.
    intros c Hc. apply in_map_iff in Hc. destruct Hc as ([k x] & <- & Hx). eauto.
  Qed.
  Lemma c_build_new c r s : okst s -> ~ In c (cs_log s) -> build_bhcol HI D c = Ok r ->
    exists s', c_build_bhcol HI m fil (LCol c) s = Ok (r, s') /\ okst s' /\ cs_log s' = cs_log s ++ [c].
  Proof.
    intros [Hv Hq] Hn H. unfold build_bhcol in H. apply bind_Ok in H. destruct H as (es & H & [= <-]).
    cbn [D fm_default m_colf] in H. unfold default_colf in H. apply bind_Ok in H. destruct H as (l & E & H).
    pose proof (@collect_col K C m s c Hv Hq) as G. rewrite E in G. destruct G as (s' & E' & Hv' & Hq' & Hl).
    exists s'. unfold c_build_bhcol, collect_f. rewrite E'. cbn [bind]. rewrite H. cbn [bind]. split; [reflexivity|]. split; [split; auto|].
    rewrite Hl. cbn [asks]. assert (Es : set_mem c (cs_log s) = false) by (destruct (set_mem c (cs_log s)) eqn:Es; auto; apply set_mem_iff in Es; contradiction).
    now rewrite Es.
  Qed.

  (** *** the standard algorithm *)
  Lemma c_standard_loop_sim v low log :
    (forall i j k, map_get i low = Some (j, k) -> exists vj, map_get j v = Some vj /\ forall k x, In (k, x) vj -> In x log) ->
    forall fuel r_i v_i r' v' s, okst s -> cs_log s = log ->
    standard_loop HI fuel D v low r_i v_i = Ok (r', v') ->
    exists s', c_standard_loop HI m fil fuel v low r_i v_i s = Ok (r', v', s') /\ okst s' /\ cs_log s' = log.
  Proof.
    intros Hlow. induction fuel as [|fuel IH]; intros r_i v_i r' v' s Hs Hl H; cbn [standard_loop c_standard_loop] in *; [discriminate|].
    apply bind_Ok in H. destruct H as ([o r1] & -> & H). cbn [bind]. destruct o as [p|].
    2:{ injection H as <- <-. eauto. }
    destruct (map_get (e_row p) low) as [[j jc]|] eqn:Eg.
    2:{ injection H as <- <-. eauto. }
    destruct (Hlow _ _ _ Eg) as (vj & Ev & Hin).
    apply bind_Ok in H. destruct H as (es & H1 & H). apply bind_Ok in H. destruct H as (vs & H2 & H).
    assert (Ej : mapvec_column v j = Ok vj) by (unfold mapvec_column; now rewrite Ev). rewrite Ej. cbn [bind].
    cbn [product_f m_colf by_ref with_trivial_filtration fm_default m_col] in H1. rewrite Ej in H1. cbn [bind] in H1.
    destruct (@collect_f_flat vj es s Hs) as (s1 & E1 & Hs1 & Hl1).
    { intros k x Hx. rewrite Hl. eauto. }
    { exact H1. }
    rewrite E1. cbn [bind]. rewrite H2. cbn [bind]. eapply IH; eauto. congruence.
  Qed.

  Lemma c_standard_step_sim fuel b i c v low st' s :
    okst s -> b_elem b i = Ok c -> ~ In c (cs_log s) ->
    (forall i j k, map_get i low = Some (j, k) -> exists vj, map_get j v = Some vj /\ forall k x, In (k, x) vj -> In x (cs_log s)) ->
    standard_step HI fuel D b (v, low) i = Ok st' ->
    exists s', c_standard_step HI m fil fuel b (v, low, s) i = Ok (st', s') /\ okst s' /\ cs_log s' = cs_log s ++ [c].
  Proof.
    intros Hs Eb Hn Hlow H. unfold standard_step, c_standard_step in *. rewrite Eb in *. cbn [bind] in *.
    apply bind_Ok in H. destruct H as (r0 & H1 & H). destruct (@c_build_new c r0 s Hs Hn H1) as (s1 & -> & Hs1 & Hl1). cbn [bind].
    apply bind_Ok in H. destruct H as ([r1 v1] & H2 & H).
    destruct (@c_standard_loop_sim v low (cs_log s ++ [c])) with (fuel := fuel) (3 := Hl1) (4 := H2) as (s2 & -> & Hs2 & Hl2); auto.
    { intros i' j k Hg. destruct (Hlow _ _ _ Hg) as (vj & E & Hin). exists vj. split; auto. intros k' x Hx. apply in_app_iff. left. eauto. }
    cbn [bind]. apply bind_Ok in H. destruct H as ([o r2] & -> & H). cbn [bind]. apply bind_Ok in H. destruct H as ([es v2] & -> & H). cbn [bind].
    injection H as <-. eauto.
  Qed.

  Variable phi : C -> F.
  Section StdRun.
    Variables (b : basis C) (l : list C) (fuel : nat).
    Hypothesis Hsq : square_matrix phi D b l.
    Hypothesis Hfuel : length (row_set m l) < fuel.

    Lemma c_standard_fold P2 : forall P st s, l = P ++ P2 -> std_inv phi D l P st -> okst s -> cs_log s = P ->
      exists st' s', foldM (c_standard_step HI m fil fuel b) (seq (length P) (length P2)) (st, s) = Ok (st', s') /\
        foldM (standard_step HI fuel D b) (seq (length P) (length P2)) st = Ok st' /\ std_inv phi D l l st' /\ okst s' /\ cs_log s' = l.
    Proof.
      destruct Hsq as (Hnd & Hen & HD). induction P2 as [|c P2 IH]; intros P st s El Hi Hs Hl; cbn [length seq foldM].
      - rewrite app_nil_r in El. subst P. eauto 10.
      - destruct (@standard_step_spec HI K C F phi D b l Hnd Hen HD fuel P c P2 st El Hfuel Hi) as (st1 & E1 & Hi1 & _).
        destruct st as [v low]. pose proof Hi as (I1 & I1' & I2).
        assert (HnP : ~ In c P) by (rewrite El in Hnd; apply NoDup_remove_2 in Hnd; intros H; apply Hnd; apply in_app_iff; auto).
        destruct (@c_standard_step_sim fuel b (length P) c v low st1 s) as (s1 & E1' & Hs1 & Hl1); auto.
        { apply Hen. rewrite El, nth_error_app2, Nat.sub_diag; auto. }
        { now rewrite Hl. }
        { intros i j k Hg. apply I2 in Hg. destruct Hg as (Hj & _). destruct (I1 j Hj) as (vj & Ev & Hvo). exists vj. split; auto.
          destruct Hvo as (_ & _ & _ & P1 & P3 & EP & Hin). intros k' x Hx. rewrite Hl, EP. apply Hin in Hx. apply in_app_iff in Hx. apply in_app_iff. simpl in *. tauto. }
        rewrite E1. change (c_standard_step HI m fil fuel b (v, low, s) (length P) = Ok (st1, s1)) in E1'. cbn [bind]. match goal with |- context [bind ?x _] => assert (Ex : x = Ok (st1, s1)) by exact E1'; rewrite Ex; clear Ex end. cbn [bind]. destruct (IH (P ++ [c]) st1 s1) as (st' & s' & E2 & E3 & H3); auto.
        { now rewrite <- app_assoc. }
        { congruence. }
        rewrite app_length in E2, E3. cbn [length] in E2, E3. rewrite Nat.add_1_r in E2, E3. eauto 10.
    Qed.

    Lemma c_read_fold v is' : forall dg dg' s, okst s -> (forall i, In i is' -> exists c vc, b_elem b i = Ok c /\ map_get c v = Some vc /\ forall k x, In (k, x) vc -> In x (cs_log s)) ->
      foldM (read_off_step HI (product_f (by_ref D) (mapvec_column v)) b) is' dg = Ok dg' ->
      exists s', foldM (c_read_off_step HI m fil b v) is' (dg, s) = Ok (dg', s') /\ okst s' /\ cs_log s' = cs_log s.
    Proof.
      induction is' as [|i is' IH]; intros dg dg' s Hs Hi H; cbn [foldM] in *.
      - injection H as <-. eauto.
      - apply bind_Ok in H. destruct H as (dg1 & H1 & H).
        destruct (Hi i (or_introl eq_refl)) as (c & vc & Eb & Ev & Hin).
        assert (E1 : exists s1, c_read_off_step HI m fil b v (dg, s) i = Ok (dg1, s1) /\ okst s1 /\ cs_log s1 = cs_log s).
        { unfold read_off_step, c_read_off_step in *. rewrite Eb in *. cbn [bind] in *.
          apply bind_Ok in H1. destruct H1 as (r1 & H1 & H2). unfold build_bhcol in H1. apply bind_Ok in H1. destruct H1 as (es & H1 & [= <-]).
          assert (Ej : mapvec_column v c = Ok vc) by (unfold mapvec_column; now rewrite Ev). rewrite Ej. cbn [bind].
          cbn [product_f m_colf] in H1. rewrite Ej in H1. cbn [bind] in H1.
          destruct (@collect_f_flat vc es s Hs Hin H1) as (s1 & E1 & Hs1 & Hl1). unfold c_build_bhcol. rewrite E1. cbn [bind].
          apply bind_Ok in H2. destruct H2 as ([o r2] & -> & H2). cbn [bind]. apply bind_Ok in H2. destruct H2 as ([o2 r3] & -> & H2). cbn [bind].
          injection H2 as <-. eauto. }
        destruct E1 as (s1 & E1 & Hs1 & Hl1). rewrite E1. cbn [bind].
        destruct (IH dg1 dg' s1 Hs1) as (s' & E & Hs' & Hl'); auto.
        { intros i' Hi'. destruct (Hi i' (or_intror Hi')) as (c' & vc' & A1 & A2 & A3). exists c', vc'. rewrite Hl1. auto. }
        exists s'. split; auto. split; auto. congruence.
    Qed.

    Theorem c_standard_spec ro :
      exists v dg s, c_standard_algo_with_diagram HI m fil fuel b ro cache_init = Ok (v, dg, s) /\
        standard_algo_with_diagram HI fuel D b ro = Ok (v, dg) /\ okst s /\ cs_log s = l.
    Proof.
      destruct (@std_diagram HI K C F phi D b l Hsq fuel Hfuel ro) as (v & dg & E & _).
      pose proof Hsq as (Hnd & Hen & HD).
      unfold standard_algo_with_diagram in E. apply bind_Ok in E. destruct E as (v' & E1 & E). apply bind_Ok in E. destruct E as (dg' & E2 & [= -> ->]).
      unfold standard_algo_with_diagram. rewrite E1. cbn [bind]. rewrite E2. cbn [bind]. exists v, dg.
      change (by_ref D) with D in *.
      unfold standard_algo in E1. destruct Hen as [Hsz Hel]. rewrite Hsz in E1.
      destruct (@c_standard_fold l [] ([], []) cache_init eq_refl) as ([v1 low1] & s1 & F1 & F2 & Hi1 & Hs1 & Hl1); auto.
      { apply std_inv_nil. }
      { split; [apply valid_init|apply quiet_init]. }
      cbn [length] in F1, F2. rewrite F2 in E1. cbn [bind] in E1. injection E1 as ->.
      unfold c_standard_algo_with_diagram, c_standard_algo. rewrite Hsz. match goal with |- context [bind (bind ?x _) _] => assert (Ex : x = Ok (v, low1, s1)) by exact F1; rewrite Ex; clear Ex end. cbn [bind].
      unfold read_off_diagram in E2. unfold c_read_off_diagram. rewrite Hsz in *.
      destruct (@c_read_fold v (if ro then rev (seq 0 (length l)) else seq 0 (length l)) (Diagram [] []) dg s1 Hs1) as (s2 & E3 & Hs2 & Hl2).
      { intros i Hi. assert (Hi' : i < length l).
        { destruct ro; [rewrite <- in_rev in Hi|]; apply in_seq in Hi; lia. }
        destruct (nth_error l i) as [c|] eqn:En; [|apply nth_error_None in En; lia].
        destruct Hi1 as (I1 & _ & _). destruct (I1 c (nth_error_In _ _ En)) as (vc & Ev & Hvo). exists c, vc. split; [auto|]. split; auto.
        rewrite Hl1. destruct Hvo as (_ & _ & _ & P1 & P3 & EP & Hin). intros k' x Hx. rewrite EP. apply Hin in Hx. apply in_app_iff in Hx. apply in_app_iff. simpl in *. tauto. }
      { exact E2. }
      rewrite E3. cbn [bind]. exists s2. split; auto. split; auto. split; auto. congruence.
    Qed.
  End StdRun.

  (** *** clearing *)
  Lemma crm_lit_reduced (rc : @rc_map K C) (j : C) t : map_get j rc = Some (Reduced t) -> crm_lit rc j = Ok (LVec (t ++ [(@k_one K, j)])).
  Proof. intros E. unfold crm_lit. cbn [crm_lit_fuel]. rewrite E. reflexivity. Qed.
  Lemma crm_col_reduced (rc : @rc_map K C) (j : C) t : map_get j rc = Some (Reduced t) -> crm_column m rc j = Ok (t ++ [(@k_one K, j)]).
  Proof. intros E. unfold crm_column. cbn [crm_column_fuel]. rewrite E. reflexivity. Qed.
  Lemma crm_lit_cleared (rc : @rc_map K C) (c j : C) t : map_get c rc = Some (Cleared j) -> map_get j rc = Some (Reduced t) ->
    crm_lit rc c = Ok (LFlat (LVec (t ++ [(@k_one K, j)]))).
  Proof.
    intros E E'. unfold crm_lit. destruct rc as [|q rc]; [discriminate|]. remember (q :: rc) as rc'.
    assert (El : length rc' = S (length rc)) by (subst; reflexivity). rewrite El. cbn [crm_lit_fuel]. rewrite E. cbn [unwrap bind]. rewrite E'. reflexivity.
  Qed.

  Lemma c_reduce_column_sim (rc : @rc_map K C) (low : @low_map K C) (log : list C) :
    (forall i j k, map_get i low = Some (j, k) -> exists t, map_get j rc = Some (Reduced t) /\ forall k x, In (k, x) (t ++ [(@k_one K, j)]) -> In x log) ->
    forall fuel r_i v_i r' v' s, okst s -> cs_log s = log -> (forall e, In e (elems v_i) -> In (e_row e) log) ->
    reduce_column HI fuel D rc low r_i v_i = Ok (r', v') ->
    exists s', c_reduce_column HI m fil fuel rc low r_i v_i s = Ok (r', v', s') /\ okst s' /\ cs_log s' = log /\
      forall e, In e (elems v') -> In (e_row e) log.
  Proof.
    intros Hlow. induction fuel as [|fuel IH]; intros r_i v_i r' v' s Hs Hl Hel H; cbn [reduce_column c_reduce_column] in *; [discriminate|].
    apply bind_Ok in H. destruct H as ([o r1] & -> & H). cbn [bind]. destruct o as [p|].
    2:{ injection H as <- <-. eauto. }
    destruct (map_get (e_row p) low) as [[j jc]|] eqn:Eg.
    2:{ injection H as <- <-. eauto. }
    destruct (Hlow _ _ _ Eg) as (t & Et & Hin).
    apply bind_Ok in H. destruct H as (es & H1 & H). apply bind_Ok in H. destruct H as (vs & H2 & H).
    rewrite (crm_lit_reduced _ _ Et). cbn [bind].
    pose proof (crm_col_reduced _ _ Et) as Ej.
    cbn [product_f m_colf by_ref with_trivial_filtration fm_default m_col D] in H1. rewrite Ej in H1. cbn [bind] in H1.
    destruct (@collect_f_flat (t ++ [(@k_one K, j)]) es s Hs) as (s1 & E1 & Hs1 & Hl1).
    { intros k x Hx. rewrite Hl. eauto. }
    { exact H1. }
    rewrite E1. cbn [bind]. rewrite collect_vec. cbn [bind].
    assert (Ev : vs = map (fun p => entry_of_tuple (fst p, snd p, tt)) (t ++ [(@k_one K, j)])).
    { cbn [m_colf by_ref with_trivial_filtration fm_default m_col D] in H2. unfold default_colf in H2. rewrite Ej in H2. cbn [bind] in H2.
      rewrite (@mapM_pure _ _ _ (fun p : K * C => entry_of_tuple (fst p, snd p, tt))) in H2 by reflexivity. now injection H2. }
    rewrite <- Ev. eapply IH; eauto; [congruence|].
    intros e He. apply (Permutation_in _ (elems_add_entries _ _)) in He. apply in_app_iff in He. destruct He as [He|He]; auto.
    rewrite Ev, map_map in He. apply in_map_iff in He. destruct He as ([k x] & <- & Hx). cbn. eauto.
  Qed.

  Lemma wfc_triv (h : bhcol HI unit_ord C K) : wfc (fun _ => tt : unit_ord) h.
  Proof. intros e _. destruct (e_fil e). reflexivity. Qed.

  Lemma c_clear_step_sim fuel sub i c (bd : @builder K C) (low : @low_map K C) bd' low' s :
    okst s -> b_elem sub i = Ok c -> ~ In c (cs_log s) ->
    (forall i j k, map_get i low = Some (j, k) -> exists t, map_get j (bd_rc bd) = Some (Reduced t)) ->
    (forall j t, map_get j (bd_rc bd) = Some (Reduced t) -> forall k x, In (k, x) (t ++ [(@k_one K, j)]) -> In x (cs_log s)) ->
    clear_step HI fuel D sub (bd, low) i = Ok (bd', low') ->
    exists s', c_clear_step HI m fil fuel sub (bd, low, s) i = Ok (bd', low', s') /\ okst s' /\
      cs_log s' = cs_log s ++ (if map_mem c (bd_rc bd) then [] else [c]) /\
      (map_mem c (bd_rc bd) = false -> exists t, map_get c (bd_rc bd') = Some (Reduced t)) /\
      (forall j t, map_get j (bd_rc bd') = Some (Reduced t) -> forall k x, In (k, x) (t ++ [(@k_one K, j)]) -> In x (cs_log s')).
  Proof.
    intros Hs Eb Hn Hlow Hsup H. unfold clear_step, c_clear_step in *. rewrite Eb in *. cbn [bind] in *.
    destruct (map_mem c (bd_rc bd)) eqn:Em.
    { injection H as <- <-. exists s. rewrite app_nil_r. split; auto. split; auto. split; auto. split; [discriminate|auto]. }
    apply bind_Ok in H. destruct H as (r0 & H1 & H). destruct (@c_build_new c r0 s Hs Hn H1) as (s1 & -> & Hs1 & Hl1). cbn [bind].
    apply bind_Ok in H. destruct H as ([r1 v1] & H2 & H).
    destruct (@c_reduce_column_sim (bd_rc bd) low (cs_log s ++ [c])) with (fuel := fuel) (3 := Hl1) (5 := H2) as (s2 & -> & Hs2 & Hl2 & Hel); auto.
    { intros i' j k Hg. destruct (Hlow _ _ _ Hg) as (t & E). exists t. split; auto. intros k' x Hx. apply in_app_iff. left. eauto. }
    { intros e He. rewrite elems_empty in He. destruct He. }
    cbn [bind]. rewrite H. cbn [bind]. exists s2. split; auto. split; auto. split; auto.
    unfold save_column in H. destruct (drain_sorted_spec (@wfc_triv v1)) as (es & h' & Ed & _ & _ & _ & _ & Hes).
    assert (Hrc : forall pre, bd_rc bd' = map_insert c (Reduced (map e_term es)) pre -> 
      (exists t, map_get c (bd_rc bd') = Some (Reduced t)) /\
      ((forall j t, j <> c -> map_get j pre = Some (Reduced t) -> map_get j (bd_rc bd) = Some (Reduced t)) ->
       forall j t, map_get j (bd_rc bd') = Some (Reduced t) -> forall k x, In (k, x) (t ++ [(@k_one K, j)]) -> In x (cs_log s2))).
    { intros pre ->. split; [exists (map e_term es); now rewrite map_get_insert_eq|]. intros Hpre j t Hj k x Hx. rewrite Hl2. rewrite map_get_insert in Hj.
      destruct (oeqb_spec c j) as [<-|Hne].
      - injection Hj as <-. apply in_app_iff in Hx. destruct Hx as [Hx|[[= <- <-]|[]]]; [|apply in_app_iff; simpl; auto].
        apply in_map_iff in Hx. destruct Hx as (e & [= <- <-] & He).
        assert (Hd : den v1 (e_row e) <> f0) by (rewrite (Hes e He); discriminate). apply den_support in Hd. destruct Hd as (e' & He' & <-). auto.
      - apply in_app_iff. left. eapply Hsup; [|exact Hx]. apply Hpre; auto. }
    destruct (peek_pivot r1) as [p|]; rewrite Ed in H; cbn [bind] in H; injection H as <- <-; cbn [bd_rc] in *.
    - destruct (Hrc _ eq_refl) as [R1 R2]. split; auto. apply R2. intros j t Hne Hg. rewrite map_get_insert in Hg. destruct (oeqb (e_row p) j); [discriminate|auto].
    - destruct (Hrc _ eq_refl) as [R1 R2]. split; auto. apply R2. auto.
  Qed.

  Section ClrRun.
    Variables (sb : split_basis C) (dims : list nat) (blocks : list (list C)) (fuel : nat).
    Hypothesis HB : block_complex phi D sb dims blocks.
    Hypothesis Hfuel : length (row_set m (concat blocks)) < fuel.

    (** a column of the current block that is used to reduce others was not cleared *)
    Lemma low_reduced pre blk post P P2 bd low i j k : blocks = pre ++ blk :: post -> blk = P ++ P2 ->
      ginv phi D blocks pre P bd -> low_inv phi D blocks P (bd_rc bd) low -> map_get i low = Some (j, k) ->
      exists t, map_get j (bd_rc bd) = Some (Reduced t).
    Proof.
      intros E Eb (G1 & G2 & G3 & G4 & G5 & _) HL Hg. apply HL in Hg. destruct Hg as (Hj & Hlead & _).
      assert (Hjd : In j (concat pre ++ P)) by (apply in_app_iff; auto).
      destruct (map_get j (bd_rc bd)) as [[j2|t]|] eqn:Ej; [|eauto|exfalso; apply (G5 j); auto]. exfalso.
      destruct (G3 _ _ Ej) as (t & Et). pose proof (proj1 (G2 _ _) Ej) as [Hj2 Hlead2].
      assert (Hinc : incl (concat pre ++ P) (concat blocks)) by (eapply done_incl; eauto).
      pose proof (Hinc _ Hj2) as Hj2l. apply in_concat in Hj2l. destruct Hj2l as (bk & Hbk & Hjb). destruct (G1 bk j2 Hbk Hjb Hj2) as (lvj & Hvj & Hokj).
      assert (HL' : exists pre' next post', blocks = pre' ++ bk :: next :: post').
      { apply in_split in Hbk. destruct Hbk as (pre' & post' & E'). destruct post' as [|next post']; eauto. exfalso.
        destruct (rden_row blocks j Hvj Hokj) as (x & Hx & Hn'); [apply Hlead2|]. destruct HB as (_ & _ & _ & _ & _ & Hlast). apply (Hlast _ _ E' x j Hx Hn'). auto. }
      destruct HL' as (pre' & next & post' & E').
      destruct (@cleared_col K C F phi D sb dims blocks HB (bd_rc bd) pre' bk next post' j j2 t E' Ej Et) as (lv & _ & _ & Hz & _); auto.
      { intros lv' Hv'. assert (lv' = lvj) by (apply vcol_crm in Hv', Hvj; congruence). now subst. }
      destruct Hlead as [Hn' _]. apply Hn'. apply Hz.
    Qed.

    (** the columns that were not cleared *)
    Definition is_reduced (rc : @rc_map K C) (c : C) : bool :=
      match map_get c rc with Some (Reduced _) => true | _ => false end.

    Definition cinv (pre : list (list C)) (P : list C) (bd : @builder K C) (s : cst) : Prop :=
      okst s /\ cs_log s = filter (is_reduced (bd_rc bd)) (concat pre ++ P) /\
      (forall j t, map_get j (bd_rc bd) = Some (Reduced t) -> forall k x, In (k, x) (t ++ [(@k_one K, j)]) -> In x (cs_log s)).

    Lemma c_clear_fold pre blk post sub P2 : blocks = pre ++ blk :: post -> enumerates sub blk ->
      forall P bd low s, blk = P ++ P2 -> ginv phi D blocks pre P bd -> low_inv phi D blocks P (bd_rc bd) low -> cinv pre P bd s ->
      exists bd' low' s', foldM (c_clear_step HI m fil fuel sub) (seq (length P) (length P2)) (bd, low, s) = Ok (bd', low', s') /\
        foldM (clear_step HI fuel D sub) (seq (length P) (length P2)) (bd, low) = Ok (bd', low') /\
        ginv phi D blocks pre blk bd' /\ cinv pre blk bd' s'.
    Proof.
      intros E Hen. induction P2 as [|c P2 IH]; intros P bd low s Eb Hg HL Hc; cbn [length seq foldM].
      - rewrite app_nil_r in Eb. subst P. eauto 10.
      - destruct (@clear_step_spec HI K C F phi D sb dims blocks HB fuel pre blk post P c P2 bd low sub E Eb Hen Hfuel Hg HL) as (bd1 & low1 & E1 & Hg1 & HL1 & Hext).
        pose proof Hg as (_ & _ & _ & G4 & G5 & _). destruct Hc as (Hs & Hlog & Hsup).
        assert (Hcd : ~ In c (concat pre ++ P)) by (eapply (@cur_not_done K C F phi D sb dims blocks HB); eauto).
        destruct (@c_clear_step_sim fuel sub (length P) c bd low bd1 low1 s) as (s1 & E1' & Hs1 & Hl1 & Hred & Hsup1); auto.
        { apply Hen. rewrite Eb, nth_error_app2, Nat.sub_diag; auto. }
        { rewrite Hlog. intros H. apply filter_In in H. tauto. }
        { intros i j k Hgi. eapply low_reduced; eauto. }
        rewrite E1. cbn [bind]. match goal with |- context [bind ?x _] => assert (Ex : x = Ok (bd1, low1, s1)) by exact E1'; rewrite Ex; clear Ex end. cbn [bind].
        destruct (IH (P ++ [c]) bd1 low1 s1) as (bd' & low' & s' & E2 & E3 & H3); auto.
        { now rewrite <- app_assoc. }
        { split; auto. split; auto. rewrite Hl1, Hlog. rewrite (app_assoc (concat pre) P [c]), (filter_app _ (concat pre ++ P) [c]).
          assert (Ef : filter (is_reduced (bd_rc bd)) (concat pre ++ P) = filter (is_reduced (bd_rc bd1)) (concat pre ++ P)).
          { apply filter_ext_in. intros x Hx. unfold is_reduced. apply G5 in Hx. destruct (map_get x (bd_rc bd)) as [e|] eqn:Ex; [|congruence]. now rewrite (Hext _ _ Ex). }
          rewrite Ef. f_equal. cbn [filter]. unfold is_reduced at 1. destruct (map_mem c (bd_rc bd)) eqn:Em.
          - unfold map_mem in Em. destruct (map_get c (bd_rc bd)) as [[j|t]|] eqn:Ex; try discriminate.
            + now rewrite (Hext _ _ Ex).
            + exfalso. apply Hcd. apply (G4 _ _ Ex).
          - destruct (Hred eq_refl) as (t & ->). reflexivity. }
        rewrite app_length in E2, E3. cbn [length] in E2, E3. rewrite Nat.add_1_r in E2, E3. eauto 10.
    Qed.

    Lemma c_dims_fold ds post : Forall2 (fun d blk => exists sub, sb_dim sb d = Ok sub /\ enumerates sub blk) ds post ->
      forall pre bd s, blocks = pre ++ post -> ginv phi D blocks pre [] bd -> cinv pre [] bd s ->
      exists bd' s', foldM (c_reduce_dimension HI m fil fuel sb) ds (bd, s) = Ok (bd', s') /\
        foldM (reduce_dimension HI fuel D sb) ds bd = Ok bd' /\ ginv phi D blocks blocks [] bd' /\ cinv blocks [] bd' s'.
    Proof.
      intros H2. induction H2 as [|d blk ds post (sub & Es & Hen) H2 IH]; intros pre bd s E Hg Hc; cbn [foldM].
      - rewrite app_nil_r in E. subst pre. eauto 10.
      - pose proof Hen as [Hsz Hel].
        destruct (@c_clear_fold pre blk post sub blk E Hen [] bd [] s) as (bd1 & low1 & s1 & E1 & E2 & Hg1 & Hc1); auto.
        { intros i j k. simpl. split; [discriminate|tauto]. }
        cbn [length] in E1, E2.
        assert (E3 : reduce_dimension HI fuel D sb bd d = Ok bd1).
        { unfold reduce_dimension. rewrite Es. cbn [bind]. rewrite Hsz.
          match goal with |- bind ?m ?f = _ => change (bind m f = bind (Ok (bd1, low1)) f); f_equal end. exact E2. }
        assert (E4 : c_reduce_dimension HI m fil fuel sb (bd, s) d = Ok (bd1, s1)).
        { unfold c_reduce_dimension. rewrite Es. cbn [bind]. rewrite Hsz.
          match goal with |- bind ?m ?f = _ => change (bind m f = bind (Ok (bd1, low1, s1)) f); f_equal end. exact E1. }
        rewrite E3, E4. cbn [bind]. apply (IH (pre ++ [blk])).
        + now rewrite <- app_assoc.
        + eapply ginv_done; [|exact Hg1]. rewrite concat_app. simpl. now rewrite !app_nil_r.
        + unfold cinv in *. rewrite concat_app. simpl. now rewrite !app_nil_r.
    Qed.

    Theorem c_build_spec :
      exists rc dg s, c_build_with_diagram HI m fil fuel sb dims cache_init = Ok (rc, dg, s) /\
        build_with_diagram HI fuel D sb dims = Ok (rc, dg) /\ ginv phi D blocks blocks [] (Builder dg rc) /\
        okst s /\ cs_log s = filter (is_reduced rc) (concat blocks) /\
        (forall j t, map_get j rc = Some (Reduced t) -> forall k x, In (k, x) (t ++ [(@k_one K, j)]) -> In x (cs_log s)).
    Proof.
      assert (H0 : ginv phi D blocks [] [] (Builder (Diagram [] []) [])).
      { unfold ginv. simpl. refine (conj _ (conj _ (conj _ (conj _ (conj _ (conj (conj _ _) (conj _ _))))))); simpl; try tauto; try constructor; try discriminate; try tauto. }
      pose proof (proj1 (proj2 HB)) as H2.
      destruct (@c_dims_fold dims blocks H2 [] (Builder (Diagram [] []) []) cache_init eq_refl H0) as ([dg rc] & s & E1 & E2 & Hg & Hc1 & Hc2 & Hc3).
      { split; [split; [apply valid_init|apply quiet_init]|]. split; [reflexivity|]. simpl. discriminate. }
      exists rc, dg, s. unfold c_build_with_diagram, build_with_diagram. rewrite E2.
      match goal with |- context [bind ?x _] => assert (Ex : x = Ok (Builder dg rc, s)) by exact E1; rewrite Ex; clear Ex end.
      cbn [bind bd_rc bd_dgm] in *. rewrite app_nil_r in Hc2. repeat (split; auto).
    Qed.
  End ClrRun.
End Red.
