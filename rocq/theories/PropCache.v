(** Properties of the caching wrapper (C18, C19) and concrete instances for the matrix properties. *)
From Verif Require Import Base Fields FieldsFacts Spec LinAlg Columns ColumnsFacts Matrices SpecMat MatricesFacts.
Set Implicit Arguments.

(* ------------------------------------------------------------------ *)
(** ** Specification: the wrapped matrix used directly

    A client holds numbered iterators; asking the plain matrix for a column yields a fresh iterator
    over that column.  There is no cache and no borrow. *)
Section Plain.
  Context {K : coeffT} {C R : ordT} (m : oracle K C R).
  Definition iters := list (option (list (K * R))).

  Definition plain_step (its : iters) (op : cache_op C) : res (cache_obs K R * iters) :=
    match op with
    | OpColumn c => do v <- m c; Ok (ObsIter (length its), its ++ [Some v])
    | OpNext i =>
        match nth_error its i with
        | Some (Some (x :: rest)) => Ok (ObsItem i (Some x), set_nth its i (Some rest))
        | Some (Some []) => Ok (ObsItem i None, set_nth its i None)
        | _ => Ok (ObsItem i None, its)
        end
    | OpDrop i => Ok (ObsUnit, set_nth its i None)
    end.
  Fixpoint plain_run (its : iters) (ops : list (cache_op C)) : res (list (cache_obs K R) * iters) :=
    match ops with
    | [] => Ok ([], its)
    | op :: ops => do (o, its') <- plain_step its op; do (os, its'') <- plain_run its' ops; Ok (o :: os, its'')
    end.

  (** No iterator is alive whenever a column not requested before is requested. *)
  Fixpoint well_timed (its : iters) (seen : list C) (ops : list (cache_op C)) : Prop :=
    match ops with
    | [] => True
    | op :: ops =>
        match op with
        | OpColumn c => ~ In c seen -> forall o, In o its -> o = None
        | _ => True
        end /\
        match plain_step its op with
        | Ok (_, its') => well_timed its' (match op with OpColumn c => c :: seen | _ => seen end) ops
        | _ => True
        end
    end.

  (** the distinct columns requested, in order of first request *)
  Fixpoint requested (seen : list C) (ops : list (cache_op C)) : list C :=
    match ops with
    | [] => []
    | OpColumn c :: ops => if set_mem c seen then requested seen ops else c :: requested (c :: seen) ops
    | _ :: ops => requested seen ops
    end.

  (** the cache holds exactly the columns seen so far *)
  Definition cache_inv (s : cache_state K C R) (its : iters) (seen : list C) : Prop :=
    cs_iters s = its /\
    (forall c v, map_get c (cs_cache s) = Some v -> m c = Ok v) /\
    (forall c, In c seen <-> map_get c (cs_cache s) <> None).

  Lemma requested_ext ops : forall s1 s2, (forall c, In c s1 <-> In c s2) -> requested s1 ops = requested s2 ops.
  Proof.
    induction ops as [|op ops IH]; intros s1 s2 H; simpl; auto. destruct op as [c| |]; auto.
    assert (E : set_mem c s1 = set_mem c s2).
    { apply eq_true_iff_eq. rewrite !set_mem_iff. apply H. }
    rewrite E. destruct (set_mem c s2); [now apply IH|]. f_equal. apply IH. intros x. simpl. now rewrite H.
  Qed.

  Lemma cache_step_sim s its seen op : cache_inv s its seen ->
    match op with OpColumn c => ~ In c seen -> forall o, In o its -> o = None | _ => True end ->
    match plain_step its op with
    | Ok (ob, its') => exists s', cache_step m s op = Ok (ob, s') /\
        cache_inv s' its' (match op with OpColumn c => c :: seen | _ => seen end) /\
        cs_log s' = cs_log s ++ (match op with OpColumn c => if set_mem c seen then [] else [c] | _ => [] end)
    | Panic => cache_step m s op = Panic
    | NoFuel => cache_step m s op = NoFuel
    end.
  Proof.
    intros (H1 & H2 & H3) Ht. destruct op as [c|i|i]; cbn [plain_step cache_step].
    - unfold cache_column, map_mem. destruct (map_get c (cs_cache s)) as [v|] eqn:E.
      + rewrite (H2 c v E). cbn [bind]. rewrite E. cbn [bind unwrap]. rewrite H1.
        eexists. split; [reflexivity|]. cbn [cs_log]. assert (Hin : In c seen) by (apply H3; congruence).
        split; [|apply set_mem_iff in Hin; rewrite Hin; now rewrite app_nil_r].
        split; [reflexivity|]. cbn [cs_cache]. split; auto. intros x. rewrite <- H3. simpl. split; [intros [<-|]; auto|auto].
      + assert (Hni : ~ In c seen) by (rewrite H3; congruence). destruct (m c) as [v| |] eqn:Em; cbn [bind]; auto.
        assert (Hb : cache_borrowed s = false).
        { unfold cache_borrowed. rewrite H1. specialize (Ht Hni). clear - Ht. induction its as [|o its IH]; simpl; auto.
          rewrite (Ht o (or_introl eq_refl)). apply IH. intros; apply Ht; now right. }
        rewrite Hb. cbn [cs_cache bind]. rewrite map_get_insert_eq. cbn [unwrap bind cs_iters cs_log]. rewrite H1.
        eexists. split; [reflexivity|]. cbn [cs_log cs_cache]. split.
        * split; [reflexivity|]. cbn [cs_cache]. split.
          -- intros x w. rewrite map_get_insert. destruct (oeqb_spec c x) as [<-|Hne]; [intros [= <-]; auto|auto].
          -- intros x. rewrite map_get_insert. destruct (oeqb_spec c x) as [<-|Hne]; simpl.
             ++ split; [discriminate|auto].
             ++ rewrite <- H3. split; [intros [|]; [contradiction|auto]|auto].
        * assert (set_mem c seen = false) as ->; auto. destruct (set_mem c seen) eqn:Es; auto. apply set_mem_iff in Es. contradiction.
    - unfold cache_next. rewrite H1. destruct (nth_error its i) as [[[|x rest]|]|] eqn:E; cbn [bind];
        (eexists; split; [reflexivity|]; cbn [cs_log]; rewrite app_nil_r; split; [|reflexivity]; (split; [try reflexivity; auto|split; auto])).
    - eexists. split; [reflexivity|]. unfold cache_drop. cbn [cs_log]. rewrite app_nil_r. split; [|reflexivity].
      split; [|split; auto]. cbn [cs_iters]. now rewrite H1.
  Qed.

  Lemma cache_run_sim ops : forall s its seen, cache_inv s its seen -> well_timed its seen ops ->
    match plain_run its ops with
    | Ok (obs, its') => exists s', cache_run m s ops = Ok (obs, s') /\ cs_log s' = cs_log s ++ requested seen ops
    | Panic => cache_run m s ops = Panic
    | NoFuel => cache_run m s ops = NoFuel
    end.
  Proof.
    induction ops as [|op ops IH]; intros s its seen Hi Ht.
    - simpl. exists s. rewrite app_nil_r. auto.
    - cbn [plain_run cache_run well_timed] in *. destruct Ht as [Ht1 Ht2].
      pose proof (@cache_step_sim s its seen op Hi Ht1) as Hs.
      destruct (plain_step its op) as [[ob its1]| |]; cbn [bind] in *; try (now rewrite Hs).
      destruct Hs as (s1 & E & Hi1 & Hl). rewrite E. cbn [bind].
      specialize (IH s1 its1 _ Hi1 Ht2). destruct (plain_run its1 ops) as [[obs its2]| |]; cbn [bind]; try (now rewrite IH).
      destruct IH as (s2 & E2 & Hl2). rewrite E2. cbn [bind]. exists s2. split; auto. rewrite Hl2, Hl, <- app_assoc. f_equal.
      destruct op as [c|i|i]; cbn [requested]; auto. destruct (set_mem c seen) eqn:Es; auto. simpl.
      apply requested_ext. intros x. simpl. apply set_mem_iff in Es. split; [intros [<-|]; auto|auto].
  Qed.

  Lemma requested_spec ops : forall seen,
    NoDup (requested seen ops) /\ forall c, In c (requested seen ops) <-> In (OpColumn c) ops /\ ~ In c seen.
  Proof.
    induction ops as [|op ops IH]; intros seen; cbn [requested].
    - split; [constructor|]. intros c. simpl. tauto.
    - destruct op as [c|i|i].
      + destruct (set_mem c seen) eqn:Es.
        * apply set_mem_iff in Es. destruct (IH seen) as [H1 H2]. split; auto. intros x. rewrite H2. simpl. split.
          -- tauto.
          -- intros [[[= ->]|H] Hn]; tauto.
        * assert (Hn : ~ In c seen) by (rewrite <- set_mem_iff; congruence). destruct (IH (c :: seen)) as [H1 H2]. split.
          -- constructor; auto. rewrite H2. simpl. tauto.
          -- intros x. simpl. rewrite H2. simpl. split.
             ++ intros [<-|[H3 H4]]; auto.
             ++ intros [[[= ->]|H] Hx]; auto. destruct (ord_eq_dec c x) as [->|Hne]; auto. right. split; auto. intros [?|?]; auto.
      + destruct (IH seen) as [H1 H2]. split; auto. intros x. rewrite H2. simpl. split; [tauto|]. intros [[H|H] Hn]; [discriminate|auto].
      + destruct (IH seen) as [H1 H2]. split; auto. intros x. rewrite H2. simpl. split; [tauto|]. intros [[H|H] Hn]; [discriminate|auto].
  Qed.
End Plain.

(** C18.  A history in which no iterator is alive when a new column is requested is answered exactly
    as by the wrapped matrix, which is consulted once per distinct column, in order of first request. *)
Theorem C18_cache_transparent {K : coeffT} {C R : ordT} (m : oracle K C R) (ops : list (cache_op C)) :
  well_timed m [] [] ops ->
  match plain_run m [] ops with
  | Ok (obs, _) => exists s, cache_run m cache_init ops = Ok (obs, s) /\
      NoDup (cs_log s) /\ forall c, In c (cs_log s) <-> In (OpColumn c) ops
  | Panic => cache_run m cache_init ops = Panic
  | NoFuel => cache_run m cache_init ops = NoFuel
  end.
Proof.
  intros Ht. pose proof (@cache_run_sim K C R m ops cache_init [] []) as H.
  assert (Hi : cache_inv m (@cache_init K C R) [] []).
  { split; [reflexivity|]. split; [discriminate|]. intros c. simpl. split; [tauto|congruence]. }
  specialize (H Hi Ht). destruct (plain_run m [] ops) as [[obs its]| |]; auto.
  destruct H as (s & E & Hl). exists s. split; auto. rewrite Hl. simpl.
  destruct (@requested_spec C ops []) as [H1 H2]. split; auto. intros c. rewrite H2. simpl. tauto.
Qed.
(** C19.  Requesting a column not yet cached while any iterator is alive panics, whatever the history. *)
Theorem C19_cache_reentrant_panics {K : coeffT} {C R : ordT} (m : oracle K C R) (ops : list (cache_op C)) obs s c v i rest :
  cache_run m cache_init ops = Ok (obs, s) ->
  nth_error (cs_iters s) i = Some (Some rest) -> map_get c (cs_cache s) = None -> m c = Ok v ->
  cache_run m cache_init (ops ++ [OpColumn c]) = Panic.
Proof.
  assert (G : forall ops1 (s0 : cache_state K C R) ops2, cache_run m s0 (ops1 ++ ops2) =
     do (o1, s1) <- cache_run m s0 ops1; do (o2, s2) <- cache_run m s1 ops2; Ok (o1 ++ o2, s2)).
  { induction ops1 as [|op ops1 IH]; intros s0 ops2.
    - simpl. destruct (cache_run m s0 ops2) as [[]| |]; reflexivity.
    - simpl. destruct (cache_step m s0 op) as [[o s1]| |]; cbn [bind]; auto. rewrite IH.
      destruct (cache_run m s1 ops1) as [[o1 s2]| |]; cbn [bind]; auto.
      destruct (cache_run m s2 ops2) as [[]| |]; reflexivity. }
  intros E Hi Hc Hm. rewrite G, E. cbn [bind cache_run cache_step]. unfold cache_column, map_mem. rewrite Hc, Hm. cbn [bind].
  assert (Hb : cache_borrowed s = true).
  { unfold cache_borrowed. apply existsb_exists. exists (Some rest). split; auto. eapply nth_error_In; eauto. }
  now rewrite Hb.
Qed.
(** ... so taking the product of a cached matrix with itself (which asks for the columns of the left factor while
    iterating over a column of the right one) panics although the plain matrix answers *)
Theorem C19_cached_square_panics {K : coeffT} {C : ordT} (m : oracle K C C) (c x : C) k rest v :
  m c = Ok ((k, x) :: rest) -> m x = Ok v -> c <> x ->
  cache_run m cache_init [OpColumn c; OpNext 0; OpColumn x] = Panic /\
  exists obs its, plain_run m [] [OpColumn c; OpNext 0; OpColumn x] = Ok (obs, its).
Proof.
  intros E1 E2 Hne. split.
  - assert (E : exists s, cache_run m cache_init [OpColumn c; OpNext 0] = Ok ([ObsIter 0; ObsItem 0 (Some (k, x))], s) /\
        nth_error (cs_iters s) 0 = Some (Some rest) /\ cs_cache s = map_insert c ((k, x) :: rest) []).
    { assert (E0 : cache_column m cache_init c = Ok (0, CacheState (map_insert c ((k, x) :: rest) []) [Some ((k, x) :: rest)] [c])).
      { unfold cache_column. change (map_mem c (cs_cache (@cache_init K C C))) with false. cbv iota. rewrite E1. cbn [bind].
        change (cache_borrowed (@cache_init K C C)) with false. cbv iota. cbn [bind cs_cache cs_iters cs_log cache_init].
        rewrite map_get_insert_eq. reflexivity. }
      cbn [cache_run cache_step]. rewrite E0. eexists. split; [reflexivity|]. split; reflexivity. }
    destruct E as (s & E & Hi & Hc). change [OpColumn c; OpNext 0; OpColumn x] with ([OpColumn c; OpNext 0] ++ [OpColumn x]).
    eapply C19_cache_reentrant_panics; eauto. rewrite Hc. rewrite map_get_insert_neq; auto.
  - cbn. rewrite E1. cbn. rewrite E2. cbn. eauto.
Qed.

(* ------------------------------------------------------------------ *)
(** ** Non-vacuity *)
Definition cm : oracle Z2_coeff nat_ord nat_ord := @vecvec_column Z2_coeff nat_ord [[]; [(Z2, 0)]; [(Z2, 0); (Z2, 1)]].
Example C18_ex : well_timed cm [] [] [OpColumn 2; OpNext 0; OpColumn 2; OpDrop 0; OpNext 1; OpDrop 1; OpColumn 1; OpNext 2] /\
  match cache_run cm cache_init [OpColumn 2; OpNext 0; OpColumn 2; OpDrop 0; OpNext 1; OpDrop 1; OpColumn 1; OpNext 2] with
  | Ok (obs, s) => obs = [ObsIter 0; ObsItem 0 (Some (Z2, 0)); ObsIter 1; ObsUnit; ObsItem 1 (Some (Z2, 0)); ObsUnit; ObsIter 2; ObsItem 2 (Some (Z2, 0))] /\ cs_log s = [2; 1]
  | _ => False end.
Proof.
  split; [|vm_compute; split; reflexivity]. simpl. repeat split; auto.
  - intros _ o [].
  - intros Hn. exfalso. apply Hn. auto.
  - intros _ o [<-|[<-|[]]]; reflexivity.
Qed.
Example C19_ex : cache_run cm cache_init [OpColumn 2; OpNext 0; OpColumn 0] = Panic.
Proof. apply (@C19_cached_square_panics Z2_coeff nat_ord cm 2 0 Z2 [(Z2, 1)] []); try reflexivity. discriminate. Qed.

Print Assumptions C18_cache_transparent.
Print Assumptions C19_cache_reentrant_panics.
