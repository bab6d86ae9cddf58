(** Property theorems C84-C86: lazy products and the reductions over a cached matrix. *)
From Verif Require Import Base Fields FieldsFacts Spec LinAlg Columns ColumnsFacts Matrices SpecMat MatricesFacts Reduction LoopProofs StandardProofs ReadOffProofs ClearingProofs Graded StandardResults Examples PropClearing PropCache CachedRun CachedFacts CachedReduce.
Set Implicit Arguments.

Lemma asks_spec {C : ordT} (cs : list C) : forall seen, NoDup (asks seen cs) /\ forall c, In c (asks seen cs) <-> In c cs /\ ~ In c seen.
Proof.
  induction cs as [|c cs IH]; intros seen; cbn [asks].
  - split; [constructor|]. simpl. tauto.
  - destruct (set_mem c seen) eqn:Es.
    + apply set_mem_iff in Es. destruct (IH seen) as [H1 H2]. split; auto. intros x. rewrite H2. simpl. split; [tauto|]. intros [[->|H] Hn]; tauto.
    + assert (Hn : ~ In c seen) by (rewrite <- set_mem_iff; congruence). destruct (IH (seen ++ [c])) as [H1 H2]. split.
      * constructor; auto. rewrite H2, in_app_iff. simpl. tauto.
      * intros x. simpl. rewrite H2, in_app_iff. simpl. split.
        -- intros [<-|[H3 H4]]; auto.
        -- intros [[->|H] Hx]; auto. destruct (ord_eq_dec c x) as [->|Hne]; auto. right. split; auto. tauto.
Qed.

(** C84.  After any history of a cached matrix all of whose iterators are finished or dropped: consuming a column of
    [product(&cached, right)], where [right] does not read the cache, yields what it yields over the plain matrix (in order), and
    consults the plain matrix once for each row of the right column that was not requested before. *)
Theorem C84_cached_product {K : coeffT} {C : ordT} (m right : oracle K C C) (ops : list (cache_op C)) obs s c l :
  cache_run m cache_init ops = Ok (obs, s) -> (forall o, In o (cs_iters s) -> o = None) -> right c = Ok l ->
  match product m right c with
  | Ok r => exists s' new, collect m (LFlat (LVec l)) s = Ok (r, s') /\ (forall o, In o (cs_iters s') -> o = None) /\
      cs_log s' = cs_log s ++ new /\ NoDup new /\
      forall x, In x new <-> In x (map snd l) /\ ~ In (OpColumn x) ops
  | Panic => collect m (LFlat (LVec l)) s = Panic
  | NoFuel => collect m (LFlat (LVec l)) s = NoFuel
  end.
Proof.
  intros E Hq El. destruct (run_valid _ (valid_init m) E) as [Hv Hlog]. unfold product. rewrite El. cbn [bind].
  pose proof (@collect_flat_vec K C m l s Hv Hq) as G. destruct (matrix_col_product m l) as [r| |]; auto.
  destruct G as (s' & E' & Hv' & Hq' & Hl). exists s', (asks (cs_log s) (map snd l)). split; auto. split; auto. split; auto.
  destruct (asks_spec (map snd l) (cs_log s)) as [N1 N2]. split; auto. intros x. rewrite N2, Hlog. simpl. tauto.
Qed.
Print Assumptions C84_cached_product.

(** ... and consuming a column [c] of [product(&cached, &cached)] works exactly if every row of column [c] is [c] or a column requested before;
    otherwise it panics, although the product of the plain matrix with itself is available. *)
Theorem C84_cached_square_exact {K : coeffT} {C : ordT} (m : oracle K C C) (ops : list (cache_op C)) obs s c col :
  cache_run m cache_init ops = Ok (obs, s) -> (forall o, In o (cs_iters s) -> o = None) ->
  m c = Ok col -> (forall k x, In (k, x) col -> exists lx, m x = Ok lx) ->
  exists r, product m m c = Ok r /\
  ((forall k x, In (k, x) col -> x = c \/ In (OpColumn x) ops) -> exists s', collect m (LFlat (LCol c)) s = Ok (r, s')) /\
  (~ (forall k x, In (k, x) col -> x = c \/ In (OpColumn x) ops) -> collect m (LFlat (LCol c)) s = Panic).
Proof.
  intros E Hq Ec Hm. destruct (run_valid _ (valid_init m) E) as [Hv Hlog].
  destruct (@collect_flat_col K C m s c col Hv Hq Ec Hm) as [G1 G2].
  assert (Hl : forall x, In x (cs_log s) <-> In (OpColumn x) ops) by (intros x; rewrite Hlog; simpl; tauto).
  assert (Er : exists r, product m m c = Ok r).
  { unfold product. rewrite Ec. cbn [bind]. destruct (@matrix_col_product_ok K C C m col Hm) as (r & -> & _). eauto. }
  destruct Er as [r Er]. exists r. split; auto. split.
  - intros H. destruct G1 as (r' & s' & E1 & E2 & _); [intros k x Hx; rewrite Hl; eauto|]. assert (r' = r) by congruence. subst r'. eauto.
  - intros Hn. apply G2. 
    assert (Hdec : (forall k x, In (k, x) col -> x = c \/ In x (cs_log s)) \/ exists k x, In (k, x) col /\ x <> c /\ ~ In x (cs_log s)).
    { clear - col. induction col as [|[k y] col IH]; [left; intros k y []|]. destruct (ord_eq_dec y c) as [->|Hyc]; [|destruct (in_dec ord_eq_dec y (cs_log s)) as [Hy|Hy]].
      - destruct IH as [IH|(k' & z & H1 & H2)]; [left|right; exists k', z; simpl; tauto]. intros k' z [[= <- <-]|Hz]; eauto.
      - destruct IH as [IH|(k' & z & H1 & H2)]; [left|right; exists k', z; simpl; tauto]. intros k' z [[= <- <-]|Hz]; eauto.
      - right. exists k, y. simpl. auto. }
    destruct Hdec as [Hall|Hex]; auto. exfalso. apply Hn. intros k x Hx. rewrite <- Hl. eauto.
Qed.
Print Assumptions C84_cached_square_exact.

(** C85.  [standard_algo_with_diagram] on a cached boundary never panics on the cache, returns what it returns on the boundary itself,
    and computes each column exactly once, in basis order. *)
Theorem C85_cached_standard :
  forall (HI : heaps) (K : coeffT) (C F : ordT) (phi : C -> F) (D : fmatrix K C C F) (b : basis C) (l : list C),
  square_matrix phi D b l ->
  forall fuel, length (row_set (m_col D) l) < fuel -> forall reverse_order,
  exists v dg s,
    c_standard_algo_with_diagram HI (m_col D) (m_fil D) fuel b reverse_order cache_init = Ok (v, dg, s) /\
    standard_algo_with_diagram HI fuel D b reverse_order = Ok (v, dg) /\
    cs_log s = l /\ (forall o, In o (cs_iters s) -> o = None).
Proof.
  intros HI K C F phi D b l (Hnd & Hen & HD) fuel Hf ro.
  assert (Hsq : square_matrix phi (fm_default (m_col D) (m_fil D)) b l).
  { split; auto. split; auto. intros c Hc. apply (coherent_by_ref (HD c Hc)). }
  destruct (@c_standard_spec HI K C F (m_col D) (m_fil D) phi b l fuel Hsq Hf ro) as (v & dg & s & E1 & E2 & [_ Hq] & Hl).
  exists v, dg, s. repeat (split; auto).
Qed.
Print Assumptions C85_cached_standard.

(** C86.  [build_with_diagram] on a cached boundary returns what it returns on (a reference to) the boundary; it computes
    no column twice, and never the column of a cell that is the birth of a finite pair: the columns computed are those of all the other cells,
    in the order of the visit. *)
Theorem C86_cached_clearing :
  forall (HI : heaps) (K : coeffT) (C F : ordT) (phi : C -> F) (D : fmatrix K C C F) (sb : split_basis C)
    (dims : list nat) (blocks : list (list C)),
  block_complex phi D sb dims blocks ->
  forall fuel, length (row_set (m_col D) (concat blocks)) < fuel ->
  exists rc dg s,
    c_build_with_diagram HI (m_col D) (m_fil D) fuel sb dims cache_init = Ok (rc, dg, s) /\
    build_with_diagram HI fuel (by_ref D) sb dims = Ok (rc, dg) /\
    NoDup (cs_log s) /\
    cs_log s = filter (fun c => negb (existsb (fun p => oeqb c (fst p)) (pairings dg))) (concat blocks) /\
    (forall o, In o (cs_iters s) -> o = None) /\
    (** ... afterwards the cleared columns of V can be consumed, but not those of [product(&cached, &V)]: *)
    forall c j, In c (concat blocks) -> In (c, j) (pairings dg) ->
      exists it, crm_lit rc c = Ok it /\
        (exists r s', collect (m_col D) it s = Ok (r, s') /\ crm_column (m_col D) rc c = Ok r) /\
        (exists r, product (m_col D) (crm_column (m_col D) rc) c = Ok r) /\
        collect (m_col D) (LFlat it) s = Panic.
Proof.
  intros HI K C F phi D sb dims blocks HB fuel Hf.
  set (m := m_col D). set (fil := m_fil D).
  assert (HB' : block_complex phi (fm_default m fil) sb dims blocks).
  { destruct HB as (H1 & H2 & H3 & H4 & H5 & H6). split; auto. split; auto. split; [|auto]. intros c Hc. apply (coherent_by_ref (H3 c Hc)). }
  destruct (@c_build_spec HI K C F m fil phi sb dims blocks fuel HB' Hf) as (rc & dg & s & E1 & E2 & Hg & [Hv Hq] & Hl & Hsup).
  exists rc, dg, s. split; auto. split; auto.
  pose proof Hg as (G1 & G2 & G3 & G4 & G5 & (_ & G6) & _). cbn [bd_rc bd_dgm] in *.
  assert (Hnd : NoDup (concat blocks)) by apply HB.
  split; [rewrite Hl; apply NoDup_filter; auto|].
  assert (Hpair : forall c j, In (c, j) (pairings dg) <-> map_get c rc = Some (Cleared j)).
  { intros c j. now rewrite G6, G2. }
  assert (Hfe : cs_log s = filter (fun c => negb (existsb (fun p => oeqb c (fst p)) (pairings dg))) (concat blocks)).
  { rewrite Hl. apply filter_ext_in. intros c Hc. unfold is_reduced.
    assert (Hc' : map_get c rc <> None) by (apply G5; rewrite app_nil_r; auto).
    destruct (map_get c rc) as [[j|t]|] eqn:Eg; [| |congruence].
    - symmetry. apply negb_false_iff. apply existsb_exists. exists (c, j). split; [apply Hpair; auto|]. apply oeqb_refl.
    - symmetry. apply negb_true_iff. destruct (existsb _ _) eqn:Ee; auto. exfalso. apply existsb_exists in Ee. destruct Ee as ([c' j] & Hin & Ec).
      cbn [fst] in Ec. destruct (oeqb_spec c c') as [<-|]; [|discriminate]. apply Hpair in Hin. congruence. }
  split; auto. split; [exact Hq|]. intros c j Hc Hp. pose proof Hp as Hcl. apply Hpair in Hcl.
  destruct (G3 _ _ Hcl) as (t & Et). exists (LFlat (LVec (t ++ [(k_one, j)]))). split; [eapply crm_lit_cleared; eauto|].
  apply G6 in Hp. destruct Hp as [Hj Hlead]. rewrite app_nil_r in Hj. pose proof Hj as Hjc. apply in_concat in Hj. destruct Hj as (bk & Hbk & Hjb).
  destruct (G1 bk j Hbk Hjb) as (lv & Hvj & Hokj); [rewrite app_nil_r; auto|].
  assert (El : lv = t ++ [(k_one, j)]).
  { apply vcol_crm in Hvj. assert (E' : crm_column m rc j = Ok (t ++ [(k_one, j)])) by (apply crm_col_reduced; auto). cbn [m_col fm_default] in Hvj. congruence. }
  assert (Hrow : exists k x lx k', In (k, x) lv /\ m x = Ok lx /\ In (k', c) lx).
  { destruct Hlead as [Hn _]. unfold rden in Hn. apply lincomb_nonzero in Hn. destruct Hn as (x & _ & Hx & Hn).
    rewrite (vden_vcol _ Hvj) in Hx. apply coef_in in Hx. destruct Hx as [k Hk]. unfold mden in Hn. cbn [m_col fm_default] in Hn.
    destruct (m x) as [lx| |] eqn:Ex; try congruence. apply coef_in in Hn. destruct Hn as [k' Hk']. exists k, x, lx, k'. auto. }
  assert (HL' : exists pre next post, blocks = pre ++ bk :: next :: post).
  { apply in_split in Hbk. destruct Hbk as (pre' & post' & E'). destruct post' as [|next post']; eauto. exfalso.
    destruct (rden_row blocks c Hvj Hokj) as (x & Hx & Hn'); [apply Hlead|]. destruct HB' as (_ & _ & _ & _ & _ & Hlast). apply (Hlast _ _ E' x c Hx Hn'). auto. }
  destruct HL' as (pre & next & post & Eb).
  assert (Hav : forall x, In x (concat blocks) -> exists lx, m x = Ok lx).
  { intros x Hx. destruct HB as (_ & _ & HD & _). destruct (HD x Hx) as (lx & _ & Ex & _). eauto. }
  assert (Hbki : incl bk (concat blocks)) by (intros x Hx; apply in_concat; eauto).
  assert (Hnxt : forall x lx k y, In x bk -> m x = Ok lx -> In (k, y) lx -> In y (concat blocks)).
  { intros x lx k y Hx Ex Hy. destruct HB as (_ & _ & _ & _ & Hnext & _). destruct (Hnext _ _ _ _ Eb x Hx) as [Hr _].
    apply in_concat. exists next. split; [rewrite Eb; apply in_app_iff; simpl; auto|]. eapply Hr; eauto. }
  destruct Hokj as [Hin _].
  assert (Hmp : exists p, matrix_col_product m lv = Ok p /\ forall k y, In (k, y) p -> In y (concat blocks)).
  { destruct (@matrix_col_product_ok K C C m lv) as (p & Ep & Hrows & _); [intros k x Hx; apply Hav; eauto|].
    exists p. split; auto. intros k y Hy. destruct (Hrows k y Hy) as (k' & x & lx & k'' & A1 & A2 & A3). apply (Hnxt x lx k'' y); eauto. }
  destruct Hmp as (p & Ep & Hpr).
  assert (Hcc : crm_column m rc c = Ok p).
  { apply (@vcol_crm K C F (fm_default m fil)). right. exists j, t. split; auto. split; auto. cbn [m_col fm_default]. now rewrite <- El. }
  split; [|split].
  - exists p. pose proof (@collect_flat_vec K C m (t ++ [(k_one, j)]) s Hv Hq) as Gc. rewrite <- El, Ep in Gc. destruct Gc as (s' & Ec & _). exists s'. rewrite <- El. auto.
  - unfold product. rewrite Hcc. cbn [bind]. destruct (@matrix_col_product_ok K C C m p) as (r & Er & _); [intros k y Hy; apply Hav; eauto|]. eauto.
  - rewrite <- El. apply (@collect_flat_flat_vec K C m lv s Hv Hq).
    + intros k x Hx. rewrite El in Hx. eapply Hsup; eauto.
    + intros k x lx k0 y Hx Ex Hy. apply Hav. apply (Hnxt x lx k0 y); eauto.
    + destruct Hrow as (k & x & lx & k' & A1 & A2 & A3). exists k, x, lx, k', c. split; auto. split; auto. split; auto.
      rewrite Hl. intros H. apply filter_In in H. destruct H as [_ H]. unfold is_reduced in H. rewrite Hcl in H. discriminate.
Qed.
Print Assumptions C86_cached_clearing.

(* ------------------------------------------------------------------ *)
(** ** Non-vacuity *)
(** columns 0, 1 and 2 of [cm] with rows [], [0] and [0; 1]: the square at 2 needs columns 0 and 1 *)
Example C84_ex : 
  collect cm (LFlat (@LCol Z2_coeff nat_ord 2)) cache_init = Panic /\
  (exists obs s, cache_run cm cache_init [OpColumn 0; OpDrop 0; OpColumn 1; OpDrop 1] = Ok (obs, s) /\ (forall o, In o (cs_iters s) -> o = None) /\
     match collect cm (LFlat (@LCol Z2_coeff nat_ord 2)) s with Ok (r, s') => r = [(Z2, 0)] /\ cs_log s' = [0; 1; 2] | _ => False end) /\
  match collect cm (LFlat (@LVec Z2_coeff nat_ord [(Z2, 2); (Z2, 1); (Z2, 2)])) cache_init with
  | Ok (r, s') => map snd r = [0; 1; 0; 0; 1] /\ cs_log s' = [2; 1] | _ => False end.
Proof.
  split; [reflexivity|]. split; [|vm_compute; split; reflexivity].
  eexists _, _. split; [vm_compute; reflexivity|]. split; [|vm_compute; split; reflexivity]. intros o [<-|[<-|[]]]; reflexivity.
Qed.
(** the filled triangle: everything is computed once by the standard algorithm; by clearing only the deaths 6, 3, 4 and the essential cell 0 *)
Example C85_ex : exists v s, square_matrix tri_fil tri_D tri_b tri_l /\
  c_standard_algo_with_diagram list_heaps (m_col tri_D) (m_fil tri_D) 7 tri_b false cache_init = Ok (v, @Diagram nat_ord [0] [(5, 6); (2, 4); (1, 3)], s) /\ cs_log s = seq 0 7.
Proof. eexists _, _. split; [exact tri_square|]. split; vm_compute; reflexivity. Qed.
Example C86_ex : exists rc s, 
  c_build_with_diagram list_heaps (m_col tri_D) (m_fil tri_D) 7 tri_sb [2; 1; 0] cache_init = Ok (rc, @Diagram nat_ord [0] [(2, 4); (1, 3); (5, 6)], s) /\
  cs_log s = [6; 3; 4; 0] /\ length (row_set (m_col tri_D) (concat tri_blocks)) < 7 /\
  match crm_lit rc (5 : nat_ord) with Ok it => collect (m_col tri_D) (LFlat it) s = Panic | _ => False end.
Proof. eexists _, _. split; [vm_compute; reflexivity|]. split; [vm_compute; reflexivity|]. split; [vm_compute; lia|]. vm_compute. reflexivity. Qed.
