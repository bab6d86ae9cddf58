(** Lazy iteration over a cached matrix: what it returns, which columns it requests, when it panics. *)
From Verif Require Import Base Fields FieldsFacts Spec LinAlg Columns ColumnsFacts Matrices SpecMat MatricesFacts Reduction PropCache CachedRun.
Set Implicit Arguments.

Section Facts.
  Context {K : coeffT} {C : ordT}.
  Notation cst := (cache_state K C C).
  Variable m : oracle K C C.

  (** the cache holds columns of [m], exactly those that were requested *)
  Definition valid (s : cst) : Prop :=
    (forall c v, map_get c (cs_cache s) = Some v -> m c = Ok v) /\
    (forall c, In c (cs_log s) <-> map_get c (cs_cache s) <> None).
  (** no iterator is alive *)
  Definition quiet (s : cst) : Prop := forall o, In o (cs_iters s) -> o = None.

  Lemma quiet_borrowed s : quiet s <-> cache_borrowed s = false.
  Proof.
    unfold quiet, cache_borrowed. split.
    - intros H. destruct (existsb _ _) eqn:E; auto. apply existsb_exists in E. destruct E as (o & Ho & E). rewrite (H o Ho) in E. discriminate.
    - intros H o Ho. destruct o as [l|]; auto. assert (E : existsb (fun o => match o with Some _ => true | None => false end) (cs_iters s) = true).
      { apply existsb_exists. exists (Some l). auto. } congruence.
  Qed.
  Lemma valid_init : valid cache_init.
  Proof. split; [discriminate|]. intros c. simpl. split; [tauto|congruence]. Qed.
  Lemma quiet_init : quiet (@cache_init K C C).
  Proof. intros o []. Qed.

  Lemma mem_log s c : valid s -> map_mem c (cs_cache s) = set_mem c (cs_log s).
  Proof.
    intros [_ H]. apply eq_true_iff_eq. rewrite set_mem_iff, H. unfold map_mem. destruct (map_get c (cs_cache s)); split; congruence.
  Qed.

  Lemma nth_mid {A} (l : list A) x : nth_error (l ++ [x]) (length l) = Some x.
  Proof. rewrite nth_error_app2, Nat.sub_diag; auto. Qed.
  Lemma set_nth_mid {A} (l : list A) x y : set_nth (l ++ [x]) (length l) y = l ++ [y].
  Proof. induction l; simpl; [reflexivity|]. now f_equal. Qed.

  (** the state after a column has been requested and consumed *)
  Definition touch (s : cst) (c : C) (l : list (K * C)) : cst :=
    CacheState (if map_mem c (cs_cache s) then cs_cache s else map_insert c l (cs_cache s))
      (cs_iters s ++ [None]) (cs_log s ++ (if map_mem c (cs_cache s) then [] else [c])).

  Lemma touch_valid s c l : valid s -> m c = Ok l -> valid (touch s c l).
  Proof.
    intros [H1 H2] E. unfold touch, map_mem. destruct (map_get c (cs_cache s)) eqn:Eg; split; cbn [cs_cache cs_log]; auto.
    - intros x. rewrite app_nil_r. apply H2.
    - intros x v. rewrite map_get_insert. destruct (oeqb_spec c x) as [<-|]; [intros [= <-]; auto|auto].
    - intros x. rewrite in_app_iff, map_get_insert, H2. simpl. destruct (oeqb_spec c x) as [<-|Hne]; split; auto; try discriminate.
      intros [H|[H|[]]]; auto.
  Qed.
  Lemma touch_quiet s c l : quiet s -> quiet (touch s c l).
  Proof. intros H o Ho. cbn [touch cs_iters] in Ho. apply in_app_iff in Ho. destruct Ho as [Ho|[<-|[]]]; auto. Qed.

  Section Drive.
    Context {A : Type}.
    (** a loop body that does not touch the cache *)
    Definition pure_body (g : A -> K * C -> A) : A -> K * C -> cst -> res (A * cst) := fun a x s => Ok (g a x, s).

    Lemma cache_column_spec s c l : valid s -> m c = Ok l ->
      cache_column m s c = if map_mem c (cs_cache s) || negb (cache_borrowed s)
        then Ok (length (cs_iters s),
          CacheState (if map_mem c (cs_cache s) then cs_cache s else map_insert c l (cs_cache s))
             (cs_iters s ++ [Some l]) (cs_log s ++ (if map_mem c (cs_cache s) then [] else [c])))
        else Panic.
    Proof.
      intros [H1 H2] E. unfold cache_column. destruct (map_mem c (cs_cache s)) eqn:Em.
      - unfold map_mem in Em. destruct (map_get c (cs_cache s)) as [v|] eqn:Eg; [|discriminate]. pose proof (H1 _ _ Eg) as Ev.
        assert (v = l) by congruence. subst v. cbn [bind]. rewrite Eg. cbn [unwrap bind orb]. now rewrite app_nil_r.
      - rewrite E. cbn [bind orb]. destruct (cache_borrowed s); [reflexivity|]. cbn [negb bind cs_cache cs_iters cs_log].
        rewrite map_get_insert_eq. reflexivity.
    Qed.
    Lemma cache_column_fail s c : valid s -> (m c = Panic -> cache_column m s c = Panic) /\ (m c = NoFuel -> cache_column m s c = NoFuel).
    Proof.
      intros [H1 H2]. unfold cache_column. destruct (map_mem c (cs_cache s)) eqn:Em.
      - unfold map_mem in Em. destruct (map_get c (cs_cache s)) as [v|] eqn:Eg; [|discriminate]. pose proof (H1 _ _ Eg) as Ev. split; congruence.
      - split; intros ->; reflexivity.
    Qed.

    Lemma drain_pure g l : forall a (cache : kmap C (list (K * C))) its log,
      drain_iter (S (length l)) (length its) (pure_body g) a (CacheState cache (its ++ [Some l]) log) =
      Ok (fold_left g l a, CacheState cache (its ++ [None]) log).
    Proof.
      induction l as [|x l IH]; intros a cache its log; cbn [length drain_iter]; unfold cache_next; cbn [cs_iters]; rewrite nth_mid; cbn [cs_cache cs_log].
      - unfold cache_drop. cbn [cs_iters cs_cache cs_log]. now rewrite !set_nth_mid.
      - rewrite set_nth_mid. unfold pure_body at 1. cbn [bind fold_left]. apply IH.
    Qed.

    Lemma drive_col_pure g s c l a : valid s -> m c = Ok l ->
      drive_col m c (pure_body g) a s =
      if map_mem c (cs_cache s) || negb (cache_borrowed s) then Ok (fold_left g l a, touch s c l) else Panic.
    Proof.
      intros Hv E. unfold drive_col. rewrite (@cache_column_spec s c l Hv E). destruct (_ || _); [|reflexivity]. cbn [bind].
      unfold iter_rest. cbn [cs_iters]. rewrite nth_mid. apply drain_pure.
    Qed.
    Lemma drive_col_fail (f : A -> K * C -> cst -> res (A * cst)) s c a : valid s -> (m c = Panic -> drive_col m c f a s = Panic) /\ (m c = NoFuel -> drive_col m c f a s = NoFuel).
    Proof.
      intros Hv. destruct (@cache_column_fail s c Hv) as [H1 H2]. unfold drive_col. split; intros E.
      - now rewrite (H1 E).
      - now rewrite (H2 E).
    Qed.
  End Drive.

  Lemma fold_snoc (h : K * C -> K * C) l : forall acc, fold_left (fun acc x => acc ++ [h x]) l acc = acc ++ map h l.
  Proof.
    induction l as [|x l IH]; intros acc; simpl; [now rewrite app_nil_r|]. rewrite IH, <- app_assoc. reflexivity.
  Qed.

  (** the columns not yet in [seen], in order of first occurrence *)
  Fixpoint asks (seen : list C) (cs : list C) : list C :=
    match cs with
    | [] => []
    | c :: cs => if set_mem c seen then asks seen cs else c :: asks (seen ++ [c]) cs
    end.
  Lemma asks_known seen cs : (forall c, In c cs -> In c seen) -> asks seen cs = [].
  Proof.
    induction cs as [|c cs IH]; intros H; simpl; auto. assert (E : set_mem c seen = true) by (apply set_mem_iff; apply H; simpl; auto).
    rewrite E. apply IH. intros; apply H; simpl; auto.
  Qed.

  (** one column *)
  Lemma collect_col s c : valid s -> quiet s ->
    match m c with
    | Ok l => exists s', collect m (LCol c) s = Ok (l, s') /\ valid s' /\ quiet s' /\ cs_log s' = cs_log s ++ asks (cs_log s) [c]
    | Panic => collect m (LCol c) s = Panic
    | NoFuel => collect m (LCol c) s = NoFuel
    end.
  Proof.
    intros Hv Hq. unfold collect. cbn [drive]. destruct (m c) as [l| |] eqn:E; try (apply drive_col_fail; auto).
    change (fun acc x (s0 : cst) => Ok (acc ++ [x], s0)) with (pure_body (fun (acc : list (K * C)) x => acc ++ [(fun y => y) x])).
    rewrite (drive_col_pure _ _ Hv E). apply quiet_borrowed in Hq. rewrite Hq, orb_true_r. apply quiet_borrowed in Hq.
    exists (touch s c l). rewrite fold_snoc, map_id. split; [reflexivity|]. split; [now apply touch_valid|]. split; [now apply touch_quiet|].
    cbn [touch cs_log asks]. rewrite (mem_log _ Hv). destruct (set_mem c (cs_log s)); reflexivity.
  Qed.

  (** a product of the cached matrix with a column that is not read from the cache *)
  Definition flat_body : list (K * C) -> K * C -> cst -> res (list (K * C) * cst) :=
    fun a p s => drive_col m (snd p) (fun a q s => Ok (a ++ [(k_mul (fst q) (fst p), snd q)], s)) a s.
  Definition scaled (k : K) (lc : list (K * C)) : list (K * C) := map (fun q => (k_mul (fst q) k, snd q)) lc.
  Lemma flat_body_ok p s a l : valid s -> m (snd p) = Ok l ->
    flat_body a p s = if map_mem (snd p) (cs_cache s) || negb (cache_borrowed s) then Ok (a ++ scaled (fst p) l, touch s (snd p) l) else Panic.
  Proof.
    intros Hv E. unfold flat_body.
    change (fun a q (s0 : cst) => Ok (a ++ [(k_mul (fst q) (fst p), snd q)], s0)) with (pure_body (fun (acc : list (K * C)) x => acc ++ [(fun q => (k_mul (fst q) (fst p), snd q)) x])).
    rewrite (drive_col_pure _ _ Hv E). destruct (_ || _); auto. now rewrite fold_snoc.
  Qed.

  Lemma mcp_cons p l : matrix_col_product m (p :: l) =
    (do lc <- m (snd p); do r <- matrix_col_product m l; Ok (scaled (fst p) lc ++ r)).
  Proof.
    unfold matrix_col_product, flat_mapM. cbn [mapM]. destruct (m (snd p)) as [lc| |]; cbn [bind]; auto.
    destruct (mapM _ l); reflexivity.
  Qed.

  Lemma drive_flat_vec l : forall s acc, valid s -> quiet s ->
    match matrix_col_product m l with
    | Ok r => exists s', drive_vec l flat_body acc s = Ok (acc ++ r, s') /\ valid s' /\ quiet s' /\
        cs_log s' = cs_log s ++ asks (cs_log s) (map snd l)
    | Panic => drive_vec l flat_body acc s = Panic
    | NoFuel => drive_vec l flat_body acc s = NoFuel
    end.
  Proof.
    induction l as [|p l IH]; intros s acc Hv Hq.
    - cbn. exists s. rewrite !app_nil_r. auto.
    - rewrite mcp_cons. cbn [drive_vec]. destruct (m (snd p)) as [lc| |] eqn:E; cbn [bind].
      2:{ assert (Hf : flat_body acc p s = Panic) by (apply drive_col_fail; auto). now rewrite Hf. }
      2:{ assert (Hf : flat_body acc p s = NoFuel) by (apply drive_col_fail; auto). now rewrite Hf. }
      rewrite (flat_body_ok _ _ Hv E). pose proof Hq as Hq'. apply quiet_borrowed in Hq'. rewrite Hq', orb_true_r. cbn [bind].
      specialize (IH (touch s (snd p) lc) (acc ++ scaled (fst p) lc) (touch_valid Hv E) (touch_quiet _ _ Hq)).
      destruct (matrix_col_product m l) as [r| |]; cbn [bind]; auto.
      destruct IH as (s' & E' & Hv' & Hq'' & Hl). exists s'. rewrite E', <- app_assoc. split; [reflexivity|]. split; auto. split; auto.
      rewrite Hl. cbn [touch cs_log map asks]. rewrite (mem_log _ Hv). destruct (set_mem (snd p) (cs_log s)).
      + now rewrite app_nil_r.
      + now rewrite <- app_assoc.
  Qed.
  Lemma collect_flat_vec l s : valid s -> quiet s ->
    match matrix_col_product m l with
    | Ok r => exists s', collect m (LFlat (LVec l)) s = Ok (r, s') /\ valid s' /\ quiet s' /\
        cs_log s' = cs_log s ++ asks (cs_log s) (map snd l)
    | Panic => collect m (LFlat (LVec l)) s = Panic
    | NoFuel => collect m (LFlat (LVec l)) s = NoFuel
    end.
  Proof. exact (drive_flat_vec l [] (s:=s)). Qed.

  Lemma collect_vec l s : collect m (LVec l) s = Ok (l, s).
  Proof.
    unfold collect. cbn [drive]. assert (G : forall acc, drive_vec l (fun acc x (s : cst) => Ok (acc ++ [x], s)) acc s = Ok (acc ++ l, s)).
    { induction l as [|x l IH]; intros acc; cbn [drive_vec bind]; [now rewrite app_nil_r|]. rewrite IH, <- app_assoc. reflexivity. }
    apply (G []).
  Qed.

  (** the same while another iterator is alive: only columns already in the cache can be read *)
  Lemma drive_flat_iter (sc : K * C -> K * C) (Hsc : forall q, snd (sc q) = snd q) l : forall acc (cache : kmap C (list (K * C))) its log,
    let s := CacheState cache (its ++ [Some l]) log in
    valid s -> (forall k x, In (k, x) l -> exists lx, m x = Ok lx) ->
    ((forall k x, In (k, x) l -> map_get x cache <> None) ->
       exists r s', drain_iter (S (length l)) (length its) (fun a q s => flat_body a (sc q) s) acc s = Ok (acc ++ r, s') /\ matrix_col_product m (map sc l) = Ok r /\
         valid s' /\ cs_cache s' = cache /\ cs_log s' = log /\ exists its', cs_iters s' = its ++ [None] ++ its' /\ forall o, In o its' -> o = None) /\
    ((exists k x, In (k, x) l /\ map_get x cache = None) ->
       drain_iter (S (length l)) (length its) (fun a q s => flat_body a (sc q) s) acc s = Panic).
  Proof.
    intros acc cache its log.
    assert (G : forall rest acc (tl : list (option (list (K * C)))), (forall o, In o tl -> o = None) ->
      let s := CacheState cache (its ++ [Some rest] ++ tl) log in
      valid s -> (forall k x, In (k, x) rest -> exists lx, m x = Ok lx) ->
      ((forall k x, In (k, x) rest -> map_get x cache <> None) ->
       exists r s', drain_iter (S (length rest)) (length its) (fun a q s => flat_body a (sc q) s) acc s = Ok (acc ++ r, s') /\ matrix_col_product m (map sc rest) = Ok r /\
         valid s' /\ cs_cache s' = cache /\ cs_log s' = log /\ exists its', cs_iters s' = its ++ [None] ++ its' /\ forall o, In o its' -> o = None) /\
      ((exists k x, In (k, x) rest /\ map_get x cache = None) ->
       drain_iter (S (length rest)) (length its) (fun a q s => flat_body a (sc q) s) acc s = Panic)).
    { induction rest as [|[k x] rest IH]; intros acc0 tl Htl s Hv Hm.
      - split; [|intros (k & x & [] & _)]. intros _. exists []. cbn [length drain_iter].
        unfold cache_next, s. cbn [cs_iters cs_cache cs_log]. rewrite nth_error_app2, Nat.sub_diag by auto. cbn [app nth_error].
        assert (Es : forall (y : option (list (K * C))) z, set_nth (its ++ y :: tl) (length its) z = its ++ z :: tl).
        { intros y z. clear. induction its; simpl; [reflexivity|now f_equal]. }
        unfold cache_drop. cbn [cs_iters cs_cache cs_log]. rewrite !Es, app_nil_r. eexists. split; [reflexivity|]. split; [reflexivity|].
        split; [exact Hv|]. cbn [cs_iters cs_cache cs_log]. split; auto. split; auto. exists tl. auto.
      - assert (Es : forall (y : option (list (K * C))) z, set_nth (its ++ y :: tl) (length its) z = its ++ z :: tl).
        { intros y z. clear. induction its; simpl; [reflexivity|now f_equal]. }
        assert (En : cache_next s (length its) = (Some (k, x), CacheState cache (its ++ [Some rest] ++ tl) log)).
        { unfold cache_next, s. cbn [cs_iters cs_cache cs_log app]. rewrite nth_error_app2, Nat.sub_diag by auto. cbn [nth_error]. now rewrite Es. }
        cbn [length]. change (drain_iter (S (S (length rest))) (length its) (fun a q s => flat_body a (sc q) s) acc0 s) with
          (let '(o, s1) := cache_next s (length its) in match o with None => Ok (acc0, cache_drop s1 (length its)) | Some y => do (a, s2) <- flat_body acc0 (sc y) s1; drain_iter (S (length rest)) (length its) (fun a q s => flat_body a (sc q) s) a s2 end).
        rewrite En. set (s1 := CacheState cache (its ++ [Some rest] ++ tl) log).
        assert (Hv1 : valid s1) by exact Hv.
        destruct (Hm k x (or_introl eq_refl)) as [lx Ex].
        assert (Hb : cache_borrowed s1 = true).
        { unfold cache_borrowed, s1. cbn [cs_iters]. rewrite !existsb_app. simpl. apply orb_true_r. }
        assert (Ex' : m (snd (sc (k, x))) = Ok lx) by (rewrite Hsc; exact Ex).
        rewrite (@flat_body_ok (sc (k, x)) s1 acc0 lx Hv1 Ex'). rewrite Hb, !Hsc. cbn [negb fst snd]. rewrite orb_false_r. cbn [cs_cache s1].
        destruct (map_mem x cache) eqn:Em.
        + cbn [bind].
          assert (Et : touch s1 x lx = CacheState cache (its ++ [Some rest] ++ (tl ++ [None])) log).
          { unfold touch, s1. cbn [cs_cache cs_iters cs_log]. rewrite Em, app_nil_r, <- !app_assoc. reflexivity. }
          rewrite Et. destruct (IH (acc0 ++ scaled (fst (sc (k, x))) lx) (tl ++ [None])) as [IH1 IH2].
          { intros o Ho. apply in_app_iff in Ho. destruct Ho as [Ho|[<-|[]]]; auto. }
          { exact Hv. }
          { intros; eapply Hm; right; eauto. }
          split.
          * intros Hc. destruct IH1 as (r & s' & E1 & E2 & H3); [intros; eapply Hc; right; eauto|].
            exists (scaled (fst (sc (k, x))) lx ++ r), s'. rewrite E1, <- app_assoc. split; [reflexivity|]. split; auto. cbn [map]. rewrite mcp_cons. now rewrite Ex', E2.
          * intros (k' & y & [[= <- <-]|Hin] & Hn).
            -- unfold map_mem in Em. rewrite Hn in Em. discriminate.
            -- apply IH2. eauto.
        + cbn [bind]. split; auto. intros Hc. exfalso. apply (Hc k x); [now left|]. unfold map_mem in Em. destruct (map_get x cache); [discriminate|auto]. }
    intros s Hv Hm. apply (G l acc []); auto. intros o [].
  Qed.

  Lemma collect_flat_col s c col : valid s -> quiet s -> m c = Ok col ->
    (forall k x, In (k, x) col -> exists lx, m x = Ok lx) ->
    ((forall k x, In (k, x) col -> x = c \/ In x (cs_log s)) ->
       exists r s', collect m (LFlat (LCol c)) s = Ok (r, s') /\ product m m c = Ok r /\ valid s' /\ quiet s' /\
         cs_log s' = cs_log s ++ asks (cs_log s) [c]) /\
    ((exists k x, In (k, x) col /\ x <> c /\ ~ In x (cs_log s)) -> collect m (LFlat (LCol c)) s = Panic).
  Proof.
    intros Hv Hq Ec Hm. unfold collect. cbn [drive]. fold flat_body.
    change (fun a (p : K * C) (s0 : cst) => drive_col m (snd p) (fun a0 q s1 => Ok (a0 ++ [(k_mul (fst q) (fst p), snd q)], s1)) a s0) with flat_body.
    unfold drive_col. rewrite (@cache_column_spec s c col Hv Ec). pose proof Hq as Hq'. apply quiet_borrowed in Hq'. rewrite Hq', orb_true_r. cbn [negb bind].
    unfold iter_rest. cbn [cs_iters]. rewrite nth_mid.
    pose proof (touch_valid Hv Ec) as Ht. unfold touch in Ht. cbn [cs_cache cs_log] in Ht.
    set (cache := if map_mem c (cs_cache s) then cs_cache s else map_insert c col (cs_cache s)) in *.
    set (log := cs_log s ++ (if map_mem c (cs_cache s) then [] else [c])) in *.
    assert (Elog : log = cs_log s ++ asks (cs_log s) [c]).
    { unfold log. cbn [asks]. rewrite (mem_log _ Hv). destruct (set_mem c (cs_log s)); reflexivity. }
    assert (Hin : forall x, map_get x cache <> None <-> x = c \/ In x (cs_log s)).
    { intros x. destruct Ht as [_ Ht]. rewrite <- Ht. cbn [cs_log]. unfold log. rewrite in_app_iff. rewrite (mem_log _ Hv). destruct (set_mem c (cs_log s)) eqn:Es; simpl.
      - apply set_mem_iff in Es. split; [tauto|intros [->|?]; auto].
      - split; [intros [?|[->|[]]]; auto|intros [->|?]; auto]. }
    destruct (@drive_flat_iter (fun q => q) (fun q => eq_refl) col [] cache (cs_iters s) log Ht Hm) as [G1 G2]. rewrite map_id in G1. split.
    - intros H. destruct G1 as (r & s' & E1 & E2 & H3 & H4 & H5 & its' & H6 & H7).
      { intros k x Hx. apply Hin. eauto. }
      exists r, s'. split; [exact E1|]. split; [unfold product; rewrite Ec; exact E2|]. split; auto. split.
      + intros o Ho. rewrite H6 in Ho. apply in_app_iff in Ho. destruct Ho as [Ho|[<-|Ho]]; auto.
      + now rewrite H5.
    - intros (k & x & Hx & Hne & Hnl). apply G2. exists k, x. split; auto. destruct (map_get x cache) eqn:Eg; auto. exfalso.
      assert (Hg : map_get x cache <> None) by congruence. apply Hin in Hg. tauto.
  Qed.

  (** a product with a product over the same cache, all of whose outer columns are already cached: it panics as soon as
      some row of them is not *)
  Lemma collect_flat_flat_vec l s : valid s -> quiet s ->
    (forall k x, In (k, x) l -> In x (cs_log s)) ->
    (forall k x lx k' y, In (k, x) l -> m x = Ok lx -> In (k', y) lx -> exists ly, m y = Ok ly) ->
    ((forall k x lx k' y, In (k, x) l -> m x = Ok lx -> In (k', y) lx -> In y (cs_log s)) ->
       exists r s', collect m (LFlat (LFlat (LVec l))) s = Ok (r, s') /\
         (do p <- matrix_col_product m l; matrix_col_product m p) = Ok r /\ valid s' /\ quiet s' /\ cs_log s' = cs_log s) /\
    ((exists k x lx k' y, In (k, x) l /\ m x = Ok lx /\ In (k', y) lx /\ ~ In y (cs_log s)) ->
       collect m (LFlat (LFlat (LVec l))) s = Panic).
  Proof.
    unfold collect. cbn [drive].
    change (fun a (p : K * C) (s0 : cst) => drive_col m (snd p) (fun a0 q s1 => drive_col m (snd (k_mul (fst q) (fst p), snd q))
        (fun a1 q0 s2 => Ok (a1 ++ [(k_mul (fst q0) (fst (k_mul (fst q) (fst p), snd q)), snd q0)], s2)) a0 s1) a s0) with
      (fun a (p : K * C) (s0 : cst) => drive_col m (snd p) (fun a q s => flat_body a ((fun q => (k_mul (fst q) (fst p), snd q)) q) s) a s0).
    assert (Happ : forall a b, matrix_col_product m (a ++ b) = (do x <- matrix_col_product m a; do y <- matrix_col_product m b; Ok (x ++ y))).
    { induction a as [|p a IHa]; intros b.
      - cbn. destruct (matrix_col_product m b); reflexivity.
      - cbn [app]. rewrite !mcp_cons, IHa. destruct (m (snd p)); cbn [bind]; auto. destruct (matrix_col_product m a); cbn [bind]; auto.
        destruct (matrix_col_product m b); cbn [bind]; auto. now rewrite app_assoc. }
    assert (G : forall l acc s, valid s -> quiet s ->
      (forall k x, In (k, x) l -> In x (cs_log s)) ->
      (forall k x lx k' y, In (k, x) l -> m x = Ok lx -> In (k', y) lx -> exists ly, m y = Ok ly) ->
      let body := fun a (p : K * C) (s0 : cst) => drive_col m (snd p) (fun a q s => flat_body a ((fun q => (k_mul (fst q) (fst p), snd q)) q) s) a s0 in
      ((forall k x lx k' y, In (k, x) l -> m x = Ok lx -> In (k', y) lx -> In y (cs_log s)) ->
       exists r s', drive_vec l body acc s = Ok (acc ++ r, s') /\
         (do p <- matrix_col_product m l; matrix_col_product m p) = Ok r /\ valid s' /\ quiet s' /\ cs_log s' = cs_log s) /\
      ((exists k x lx k' y, In (k, x) l /\ m x = Ok lx /\ In (k', y) lx /\ ~ In y (cs_log s)) ->
       drive_vec l body acc s = Panic)).
    { clear l s. induction l as [|[k x] l IH]; intros acc s Hv Hq Hl Hm body.
      - split; [|intros (k & x & lx & k' & y & [] & _)]. intros _. exists [], s. cbn. rewrite app_nil_r. auto.
      - assert (Hx : In x (cs_log s)) by (eapply Hl; left; reflexivity).
        assert (Ex : exists lx, m x = Ok lx /\ map_get x (cs_cache s) = Some lx).
        { destruct Hv as [H1 H2]. apply H2 in Hx. destruct (map_get x (cs_cache s)) as [lx|] eqn:Eg; [|congruence]. exists lx. split; auto. }
        destruct Ex as (lx & Ex & Eg). assert (Em : map_mem x (cs_cache s) = true) by (unfold map_mem; now rewrite Eg).
        cbn [drive_vec]. unfold body at 1 3. unfold drive_col. cbn [snd fst]. rewrite (@cache_column_spec s x lx Hv Ex), Em. cbn [orb bind].
        unfold iter_rest. cbn [cs_iters]. rewrite nth_mid, app_nil_r.
        destruct (@drive_flat_iter (fun q => (k_mul (fst q) k, snd q)) (fun q => eq_refl) lx acc (cs_cache s) (cs_iters s) (cs_log s)) as [G1 G2].
        { exact Hv. }
        { intros k' y Hy. eapply Hm; [left; reflexivity|exact Ex|exact Hy]. }
        assert (Hcl : forall y, In y (cs_log s) <-> map_get y (cs_cache s) <> None) by apply Hv.
        assert (Hdec : (forall k' y, In (k', y) lx -> In y (cs_log s)) \/ exists k' y, In (k', y) lx /\ ~ In y (cs_log s)).
        { clear - lx. induction lx as [|[k y] lx IH]; [left; intros k y []|]. destruct (in_dec ord_eq_dec y (cs_log s)) as [Hy|Hy].
          - destruct IH as [IH|(k' & z & H1 & H2)]; [left|right; exists k', z; simpl; auto]. intros k' z [[= <- <-]|Hz]; eauto.
          - right. exists k, y. simpl. auto. }
        destruct Hdec as [Hall|(k' & y & Hy & Hny)].
        + destruct G1 as (r1 & s1 & E1 & E2 & Hv1 & Hc1 & Hl1 & its' & Hi1 & Hi2).
          { intros k' y Hy. apply Hcl. eauto. }
          rewrite E1. cbn [bind]. assert (Hq1 : quiet s1).
          { intros o Ho. rewrite Hi1 in Ho. apply in_app_iff in Ho. destruct Ho as [Ho|[<-|Ho]]; auto. }
          destruct (IH (acc ++ r1) s1 Hv1 Hq1) as [J1 J2].
          { intros k' y Hy. rewrite Hl1. eapply Hl. right. eauto. }
          { intros k1 x1 lx1 k2 y Hi He Hy. eapply Hm; [right; exact Hi|exact He|exact Hy]. }
          split.
          * intros Hin. destruct J1 as (r & s' & E3 & E4 & H5 & H6 & H7).
            { intros k1 x1 lx1 k2 y Hi He Hy. rewrite Hl1. eapply Hin; [right; exact Hi|exact He|exact Hy]. }
            exists (r1 ++ r), s'. split; [rewrite app_assoc; exact E3|]. split; [|split; auto; split; auto; congruence].
            rewrite mcp_cons. cbn [snd fst]. rewrite Ex. cbn [bind]. apply bind_Ok in E4. destruct E4 as (p & -> & E4). cbn [bind].
            rewrite Happ. unfold scaled. now rewrite E2, E4.
          * intros (k1 & x1 & lx1 & k2 & y & [[= <- <-]|Hi] & He & Hy & Hn).
            -- exfalso. apply Hn. assert (lx1 = lx) by congruence. subst lx1. eauto.
            -- apply J2. exists k1, x1, lx1, k2, y. rewrite Hl1. auto.
        + rewrite G2 by (exists k', y; split; auto; destruct (map_get y (cs_cache s)) eqn:E; auto; exfalso; apply Hny, Hcl; congruence).
          cbn [bind]. split; auto. intros Hin. exfalso. apply Hny. eapply Hin; [left; reflexivity|exact Ex|exact Hy]. }
    intros Hv Hq H1 H2. exact (G l [] s Hv Hq H1 H2).
  Qed.

  (** any client history leaves a valid cache, and the log lists the distinct columns requested *)
  Lemma run_valid ops : forall s obs s', valid s -> cache_run m s ops = Ok (obs, s') ->
    valid s' /\ forall c, In c (cs_log s') <-> In c (cs_log s) \/ In (OpColumn c) ops.
  Proof.
    induction ops as [|op ops IH]; intros s obs s' Hv E; cbn [cache_run] in E.
    - injection E as <- <-. split; auto. intros c. simpl. tauto.
    - apply bind_Ok in E. destruct E as ([o s1] & E1 & E). apply bind_Ok in E. destruct E as ([os s2] & E2 & E). injection E as <- <-.
      assert (H1 : valid s1 /\ forall c, In c (cs_log s1) <-> In c (cs_log s) \/ op = OpColumn c).
      { destruct op as [c|i|i]; cbn [cache_step] in E1.
        - apply bind_Ok in E1. destruct E1 as ([h s3] & E1 & E3). injection E3 as <- <-.
          destruct (m c) as [l| |] eqn:Em.
          2:{ destruct (@cache_column_fail s c Hv) as [H _]. rewrite (H Em) in E1. discriminate. }
          2:{ destruct (@cache_column_fail s c Hv) as [_ H]. rewrite (H Em) in E1. discriminate. }
          rewrite (@cache_column_spec s c l Hv Em) in E1. destruct (_ || _); [|discriminate]. injection E1 as <- <-.
          pose proof (touch_valid Hv Em) as Ht. split; [exact Ht|]. intros x. cbn [cs_log]. rewrite in_app_iff, (mem_log _ Hv).
          destruct (set_mem c (cs_log s)) eqn:Es; simpl.
          + apply set_mem_iff in Es. split; [tauto|]. intros [H|[= <-]]; auto.
          + split; [intros [H|[->|[]]]; auto|intros [H|[= <-]]; auto].
        - destruct (cache_next s i) as [x s3] eqn:En. injection E1 as <- <-.
          assert (cs_cache s3 = cs_cache s /\ cs_log s3 = cs_log s) as [Hc Hl].
          { unfold cache_next in En. destruct (nth_error (cs_iters s) i) as [[[|y r]|]|]; injection En as <- <-; auto. }
          split; [unfold valid; now rewrite Hc, Hl|]. intros c. rewrite Hl. split; [auto|intros [H|H]; [auto|discriminate]].
        - injection E1 as <- <-. split; [exact Hv|]. intros c. cbn [cache_drop cs_log]. split; [auto|intros [H|H]; [auto|discriminate]]. }
      destruct H1 as [Hv1 H1]. destruct (IH _ _ _ Hv1 E2) as [Hv2 H2]. split; auto. intros c. rewrite H2, H1. simpl. tauto.
  Qed.
End Facts.
