(** Runs with machine arithmetic against runs over an ideal field. *)
From Verif Require Import Base Fields Columns Matrices Reduction Machine.
Set Implicit Arguments.

(* ------------------------------------------------------------------ *)
(** ** Over an ideal field nothing changes *)
Section Pure.
  Variable HI : heaps.
  Context {K : coeffT}.
  Notation A := (pure_mach K).

  Lemma pure_pop_loop {F R : ordT} fuel (h : bhcol HI F R K) wi ws wf : x_pop_loop (A:=A) fuel h wi ws wf = pop_loop fuel h wi ws wf.
  Proof.
    revert h wi ws wf. induction fuel as [|fuel IH]; intros h wi ws wf; [reflexivity|]. cbn [x_pop_loop pop_loop].
    change (mcar A) with (kcar K). destruct (hp_peek (HI F R K) h) as [next|]; [|reflexivity].
    destruct (negb (oeqb (e_row next) wi)); destruct ws as [k|]; try reflexivity;
      destruct (hp_pop (HI F R K) h) as [[ne h']|]; cbn [unwrap bind]; try reflexivity; apply IH.
  Qed.
  Lemma pure_pop {F R : ordT} (h : bhcol HI F R K) : x_pop_pivot (A:=A) h = pop_pivot h.
  Proof. unfold x_pop_pivot, pop_pivot. change (mcar A) with (kcar K). destruct (hp_pop (HI F R K) h) as [[e h1]|]; [|reflexivity]. apply (pure_pop_loop (F:=F) (R:=R)). Qed.
  Lemma pure_drain_loop {F R : ordT} fuel (h : bhcol HI F R K) : x_drain_loop (A:=A) fuel h = drain_loop fuel h.
  Proof.
    revert h. induction fuel as [|fuel IH]; intros h; [reflexivity|]. cbn [x_drain_loop drain_loop]. rewrite pure_pop. change (mcar A) with (kcar K).
    destruct (pop_pivot h) as [[[e|] h']| |]; cbn [bind]; try reflexivity. rewrite IH. reflexivity.
  Qed.
  Lemma pure_drain {F R : ordT} (h : bhcol HI F R K) : x_drain_sorted (A:=A) h = drain_sorted h.
  Proof. apply pure_drain_loop. Qed.
  Lemma pure_clone {F R : ordT} (h : bhcol HI F R K) : x_clone_pivot (A:=A) h = clone_pivot h.
  Proof. unfold x_clone_pivot, clone_pivot. rewrite pure_pop. reflexivity. Qed.
  Lemma pure_scale {F R : ordT} (es : list (entry F R K)) (m : K) : mapM (fun e => x_scale (A:=A) e m) es = Ok (map (fun e => entry_scale e m) es).
  Proof. apply (mapM_pure (fun e : entry F R K => x_scale (A:=A) e m)). reflexivity. Qed.
  Lemma pure_col_product {C R : ordT} (m : oracle K C R) col : x_col_product (A:=A) m col = matrix_col_product m col.
  Proof.
    unfold x_col_product, matrix_col_product. apply flat_mapM_ext. intros [k c] _. cbn [fst snd]. destruct (m c) as [lc| |]; cbn [bind]; auto.
    apply (mapM_pure (fun q : K * R => do k0 <- x_mul (m:=A) (fst q) k; Ok (k0, snd q))). reflexivity.
  Qed.

  (** a matrix over the ideal field, seen as a matrix with machine coefficients *)
  Definition xm {C R F : ordT} (D : fmatrix K C R F) : xmatrix A C R F := @XMatrix A C R F (m_col D) (m_fil D) (m_colf D).
  Lemma pure_product_f {C J R F : ordT} (L : fmatrix K J R F) (right : oracle K C J) c :
    x_colf (x_product_f (xm L) (right : xoracle A C J)) c = m_colf (product_f L right) c.
  Proof.
    cbn [x_product_f x_colf product_f m_colf xm]. destruct (right c) as [rc| |]; cbn [bind]; auto. apply flat_mapM_ext. intros [k j] _. cbn [fst snd].
    destruct (m_colf L j) as [lc| |]; cbn [bind]; auto.
    apply (mapM_pure (fun e : entry F R K => do k0 <- x_mul (m:=A) (e_coeff e) k; Ok (Entry (e_fil e) (e_row e) k0))). reflexivity.
  Qed.

  Section Algo.
    Context {C F : ordT}.
    Lemma pure_product_ext {J R : ordT} (L : fmatrix K J R F) (r1 : xoracle A C J) (r2 : oracle K C J) c : r1 c = r2 c ->
      x_colf (x_product_f (xm L) r1) c = m_colf (product_f L r2) c.
    Proof. intros E. rewrite <- pure_product_f. cbn [x_product_f x_colf]. rewrite E. reflexivity. Qed.
    Lemma pure_standard_loop fuel (D : fmatrix K C C F) (v : @v_map K C) (low : @low_map K C) (r_i : bhcol HI F C K) (v_i : bhcol HI unit_ord C K) :
      x_standard_loop (A:=A) HI fuel (xm D) v low r_i v_i = standard_loop HI fuel D v low r_i v_i.
    Proof.
      revert r_i v_i. induction fuel as [|fuel IH]; intros r_i v_i; [reflexivity|]. cbn [x_standard_loop standard_loop]. rewrite pure_pop. change (mcar A) with (kcar K).
      destruct (pop_pivot r_i) as [[[p|] h]| |]; cbn [bind]; try reflexivity.
      destruct (map_get (e_row p) low) as [[j kj]|]; try reflexivity. cbn [x_neg x_inv x_mul pure_mach bind].
      change (x_ref (xm D)) with (xm (by_ref D)).
      match goal with |- bind ?m _ = bind ?m' _ => assert (Em : m = m') by exact (@pure_product_ext C C (by_ref D) (x_col (x_ref (x_trivial (@x_mapvec A C C v)))) (m_col (by_ref (with_trivial_filtration (mapvec_column v)))) j eq_refl); rewrite Em; clear Em end.
      destruct (m_colf (product_f _ _) j) as [es| |]; cbn [bind]; try reflexivity.
      match goal with |- bind ?m _ = _ => assert (Em : m = Ok (map (fun e => entry_scale e (k_mul (k_neg (e_coeff p)) (k_inv kj))) es)) by apply (pure_scale es); rewrite Em; clear Em end. cbn [bind].
      match goal with |- bind ?m _ = bind ?m' _ => assert (Em : m = m') by exact eq_refl; rewrite Em; clear Em end.
      destruct (m_colf (with_trivial_filtration (mapvec_column v)) j) as [vs| |]; cbn [bind]; try reflexivity.
      match goal with |- bind ?m _ = _ => assert (Em : m = Ok (map (fun e => entry_scale e (k_mul (k_neg (e_coeff p)) (k_inv kj))) vs)) by apply (pure_scale (F:=unit_ord) vs); rewrite Em; clear Em end. cbn [bind].
      apply IH.
    Qed.
    Lemma pure_build {R : ordT} (D : fmatrix K C R F) c : x_build HI (xm D) c = build_bhcol HI D c.
    Proof. reflexivity. Qed.
    Lemma pure_foldM_ext {X S} (f g : S -> X -> res S) l : (forall s a, f s a = g s a) -> forall s, foldM f l s = foldM g l s.
    Proof. intros H. induction l as [|a l IH]; intros s; simpl; auto. rewrite H. destruct (g s a); simpl; auto. Qed.
    Lemma pure_standard_step fuel (D : fmatrix K C C F) b (st : @v_map K C * @low_map K C) i : x_standard_step (A:=A) HI fuel (xm D) b st i = standard_step HI fuel D b st i.
    Proof.
      destruct st as [v low]. unfold x_standard_step, standard_step. destruct (b_elem b i) as [c| |]; cbn [bind]; auto. rewrite pure_build.
      change (mcar A) with (kcar K). destruct (build_bhcol HI D c) as [r| |]; cbn [bind]; try reflexivity. change (@x_one A) with (@k_one K).
      rewrite pure_standard_loop. change (mcar A) with (kcar K). destruct (standard_loop HI fuel D v low r _) as [[r' v']| |]; cbn [bind]; try reflexivity.
      rewrite pure_pop. change (mcar A) with (kcar K). destruct (pop_pivot r') as [[o h]| |]; cbn [bind]; try reflexivity. rewrite pure_drain. reflexivity.
    Qed.
    Lemma pure_standard_algo fuel (D : fmatrix K C C F) b : x_standard_algo (A:=A) HI fuel (xm D) b = standard_algo HI fuel D b.
    Proof. unfold x_standard_algo, standard_algo. rewrite (pure_foldM_ext _ (standard_step HI fuel D b)) by (intros; apply pure_standard_step). reflexivity. Qed.
    Lemma pure_read_off (D : fmatrix K C C F) b (v : @v_map K C) ro : x_read_off_diagram (A:=A) HI (xm D) b v ro = read_off_diagram HI D b v ro.
    Proof.
      unfold x_read_off_diagram, read_off_diagram. apply pure_foldM_ext. intros dg i. unfold x_read_off_step, read_off_step.
      destruct (b_elem b i) as [c| |]; cbn [bind]; auto. unfold x_build, build_bhcol. change (x_ref (xm D)) with (xm (by_ref D)).
      change (@x_mapvec A C C v) with (@mapvec_column K C C v). rewrite pure_product_f. change (mcar A) with (kcar K).
      destruct (m_colf (product_f (by_ref D) (mapvec_column v)) c) as [es| |]; cbn [bind]; try reflexivity.
      rewrite pure_pop. change (mcar A) with (kcar K). destruct (pop_pivot _) as [[o h]| |]; cbn [bind]; try reflexivity.
      rewrite pure_pop. reflexivity.
    Qed.
    Lemma pure_with_diagram fuel (D : fmatrix K C C F) b ro : x_standard_algo_with_diagram (A:=A) HI fuel (xm D) b ro = standard_algo_with_diagram HI fuel D b ro.
    Proof.
      unfold x_standard_algo_with_diagram, standard_algo_with_diagram. change (x_ref (xm D)) with (xm (by_ref D)). rewrite pure_standard_algo.
      destruct (standard_algo HI fuel (by_ref D) b) as [v| |]; cbn [bind]; auto. rewrite pure_read_off. reflexivity.
    Qed.
    (** *** clearing *)
    Lemma pure_crm_fuel fuel (D : oracle K C C) (rc : @rc_map K C) c : x_crm_fuel (A:=A) fuel D rc c = crm_column_fuel fuel D rc c.
    Proof.
      revert c. induction fuel as [|fuel IH]; intros c; [reflexivity|]. cbn [x_crm_fuel crm_column_fuel]. change (mcar A) with (kcar K).
      destruct (unwrap (map_get c rc)) as [[j|l]| |]; cbn [bind]; try reflexivity. rewrite IH. change (mcar A) with (kcar K).
      destruct (crm_column_fuel fuel D rc j) as [vj| |]; cbn [bind]; try reflexivity. apply pure_col_product.
    Qed.
    Lemma pure_crm_triv (D : oracle K C C) (rc : @rc_map K C) c : x_colf (x_trivial (x_crm (A:=A) D rc)) c = m_colf (with_trivial_filtration (crm_column D rc)) c.
    Proof.
      cbn [x_trivial xm_default x_colf with_trivial_filtration fm_default m_colf]. unfold x_default_colf, default_colf, x_crm, crm_column.
      rewrite pure_crm_fuel. reflexivity.
    Qed.
    Lemma pure_col_is_cycle (D : fmatrix K C C F) (rc : @rc_map K C) c : x_col_is_cycle (A:=A) HI (xm D) rc c = col_is_cycle HI D rc c.
    Proof.
      unfold x_col_is_cycle, col_is_cycle. change (mcar A) with (kcar K). destruct (unwrap (map_get c rc)) as [[j|l]| |]; cbn [bind]; try reflexivity.
      unfold x_build, build_bhcol. change (x_ref (xm D)) with (xm (by_ref D)).
      rewrite (@pure_product_ext C C (by_ref D) (x_crm (x_col (xm D)) rc) (crm_column (m_col D) rc)) by apply pure_crm_fuel. change (mcar A) with (kcar K).
      destruct (m_colf (product_f (by_ref D) (crm_column (m_col D) rc)) c) as [es| |]; cbn [bind]; try reflexivity. rewrite pure_pop. reflexivity.
    Qed.
    Lemma pure_reduce_column fuel (D : fmatrix K C C F) (rc : @rc_map K C) (low : @low_map K C) (r_i : bhcol HI F C K) (v_i : bhcol HI unit_ord C K) :
      x_reduce_column (A:=A) HI fuel (xm D) rc low r_i v_i = reduce_column HI fuel D rc low r_i v_i.
    Proof.
      revert r_i v_i. induction fuel as [|fuel IH]; intros r_i v_i; [reflexivity|]. cbn [x_reduce_column reduce_column]. rewrite pure_clone. change (mcar A) with (kcar K).
      destruct (clone_pivot r_i) as [[[p|] h]| |]; cbn [bind]; try reflexivity.
      destruct (map_get (e_row p) low) as [[j kj]|]; try reflexivity. cbn [x_neg x_inv x_mul pure_mach bind].
      change (x_ref (xm D)) with (xm (by_ref D)). change (x_col (xm (by_ref D))) with (m_col (by_ref D)).
      match goal with |- bind ?m _ = bind ?m' _ => assert (Em : m = m') by exact (@pure_product_ext C C (by_ref D) (x_col (x_ref (x_trivial (@x_crm A C (x_col (x_ref (xm D))) rc)))) (m_col (by_ref (with_trivial_filtration (crm_column (m_col (by_ref D)) rc)))) j (pure_crm_fuel _ _ _ _)); rewrite Em; clear Em end.
      destruct (m_colf (product_f _ _) j) as [es| |]; cbn [bind]; try reflexivity.
      match goal with |- bind ?m _ = _ => assert (Em : m = Ok (map (fun e => entry_scale e (k_mul (k_neg (e_coeff p)) (k_inv kj))) es)) by apply (pure_scale es); rewrite Em; clear Em end. cbn [bind].
      match goal with |- bind ?m _ = bind ?m' _ => assert (Em : m = m') by exact (pure_crm_triv _ _ _); rewrite Em; clear Em end.
      destruct (m_colf (with_trivial_filtration (crm_column (m_col (by_ref D)) rc)) j) as [vs| |]; cbn [bind]; try reflexivity.
      match goal with |- bind ?m _ = _ => assert (Em : m = Ok (map (fun e => entry_scale e (k_mul (k_neg (e_coeff p)) (k_inv kj))) vs)) by apply (pure_scale (F:=unit_ord) vs); rewrite Em; clear Em end. cbn [bind].
      apply IH.
    Qed.
    Definition xb (bd : @builder K C) : @xbuilder A C := @XBuilder A C (bd_dgm bd) (bd_rc bd).
    Definition rmap {X Y} (f : X -> Y) (r : res X) : res Y := do x <- r; Ok (f x).
    Lemma pure_clear_step fuel (D : fmatrix K C C F) sub bd (low : @low_map K C) i :
      x_clear_step (A:=A) HI fuel (xm D) sub (xb bd, low) i = rmap (fun p => (xb (fst p), snd p)) (clear_step HI fuel D sub (bd, low) i).
    Proof.
      unfold x_clear_step, clear_step, rmap. destruct (b_elem sub i) as [c| |]; cbn [bind]; auto. cbn [xb xb_rc].
      match goal with |- (if ?b then _ else _) = bind (if ?b' then _ else _) _ => change b with b'; destruct b' end; [reflexivity|].
      rewrite pure_build. change (mcar A) with (kcar K). destruct (build_bhcol HI D c) as [r| |]; cbn [bind]; try reflexivity.
      rewrite pure_reduce_column. change (mcar A) with (kcar K).
      destruct (reduce_column HI fuel D (bd_rc bd) low r _) as [[r' v']| |]; cbn [bind]; try reflexivity.
      unfold x_save_column, save_column. cbn [xb_dgm xb_rc]. change (mcar A) with (kcar K).
      destruct (peek_pivot r') as [p|]; rewrite pure_drain; change (mcar A) with (kcar K); destruct (drain_sorted v') as [[es h]| |]; reflexivity.
    Qed.
    Lemma pure_build_with_diagram fuel (D : fmatrix K C C F) sb dims : x_build_with_diagram (A:=A) HI fuel (xm D) sb dims = build_with_diagram HI fuel D sb dims.
    Proof.
      unfold x_build_with_diagram, build_with_diagram. change (@XBuilder A C (Diagram [] []) []) with (xb (@Builder K C (Diagram [] []) [])).
      assert (Hf : forall sub l bd (low : @low_map K C), foldM (x_clear_step (A:=A) HI fuel (xm D) sub) l (xb bd, low) = rmap (fun p => (xb (fst p), snd p)) (foldM (clear_step HI fuel D sub) l (bd, low))).
      { intros sub l. induction l as [|i l IH]; intros bd low; [reflexivity|]. cbn [foldM]. rewrite pure_clear_step. unfold rmap.
        match goal with |- bind (bind ?m _) _ = bind (bind ?m' _) _ => change m with m'; destruct m' as [[bd' low']| |]; cbn [bind fst snd]; try reflexivity; apply IH end. }
      assert (Hd : forall bd, foldM (x_reduce_dimension (A:=A) HI fuel (xm D) sb) dims (xb bd) = rmap xb (foldM (reduce_dimension HI fuel D sb) dims bd)).
      { induction dims as [|d dims IH]; intros bd; [reflexivity|]. cbn [foldM].
        assert (E : x_reduce_dimension (A:=A) HI fuel (xm D) sb (xb bd) d = rmap xb (reduce_dimension HI fuel D sb bd d)).
        { unfold x_reduce_dimension, reduce_dimension, rmap. destruct (sb_dim sb d) as [sub| |]; cbn [bind]; auto. rewrite Hf. unfold rmap.
          match goal with |- bind (bind ?m _) _ = bind (bind ?m' _) _ => change m with m'; destruct m' as [[? ?]| |]; reflexivity end. }
        rewrite E. unfold rmap. destruct (reduce_dimension HI fuel D sb bd d) as [bd'| |]; cbn [bind]; try reflexivity. apply IH. }
      rewrite Hd. unfold rmap. destruct (foldM (reduce_dimension HI fuel D sb) dims (Builder (Diagram [] []) [])) as [bd| |]; reflexivity.
    Qed.
  End Algo.
End Pure.
