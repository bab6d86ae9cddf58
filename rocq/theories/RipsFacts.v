(** Facts about the Rips (co)boundary columns. *)
From Verif Require Import Base Fields Spec LinAlg Columns ColumnsFacts Matrices SpecMat MatricesFacts Rips SpecRips RipsCode.
From Coq Require Import Ring Field Sorted Lia.
Set Implicit Arguments.

(** ** Removing one vertex *)
Fixpoint rem (i : nat) (l : list nat) : list nat :=
  match l, i with
  | [], _ => []
  | _ :: t, O => t
  | x :: t, S i => x :: rem i t
  end.

Lemma all_but_gen k i l : map snd (filter (fun p : nat * nat => negb (fst p =? k + i)) (combine (seq k (length l)) l)) = 
  if i <? length l then rem i l else l.
Proof.
  assert (G0 : forall l k m, m < k -> map snd (filter (fun p : nat * nat => negb (fst p =? m)) (combine (seq k (length l)) l)) = l).
  { clear. induction l as [|x l IH]; intros k m H; simpl; auto. destruct (Nat.eqb_spec k m); [lia|]. simpl. rewrite IH; auto. }
  revert k i. induction l as [|x l IH]; intros k i; simpl; auto.
  destruct i as [|i].
  - rewrite Nat.add_0_r, Nat.eqb_refl. simpl. apply G0. lia.
  - destruct (Nat.eqb_spec k (k + S i)); [lia|]. simpl. replace (k + S i) with (S k + i) by lia. rewrite IH.
    unfold Nat.ltb. simpl. destruct (length l); auto. destruct (i <=? n0); auto.
Qed.
Lemma all_but_rem i l : i < length l -> all_but i l = rem i l.
Proof. intros H. unfold all_but. change i with (0 + i) at 1. rewrite (all_but_gen 0 i l). apply Nat.ltb_lt in H. now rewrite H. Qed.

Lemma rem_app l1 v l2 : rem (length l1) (l1 ++ v :: l2) = l1 ++ l2.
Proof. induction l1; simpl; congruence. Qed.
Lemma facet_rem t i s : facet t i s <-> i < length t /\ s = rem i t.
Proof.
  split.
  - intros (l1 & v & l2 & -> & -> & <-). rewrite app_length, rem_app. simpl. split; auto. lia.
  - intros [Hi ->]. destruct (nth_error t i) as [v|] eqn:E; [|apply nth_error_None in E; lia].
    apply nth_error_split in E. destruct E as (l1 & l2 & -> & <-). exists l1, v, l2. now rewrite rem_app.
Qed.
Lemma facet_length t i s : facet t i s -> length t = S (length s).
Proof. intros (l1 & v & l2 & -> & -> & _). rewrite !app_length. simpl. lia. Qed.
Lemma facet_unique t i j s : NoDup t -> facet t i s -> facet t j s -> i = j.
Proof.
  intros Hn (l1 & v & l2 & -> & -> & <-) (m1 & w & m2 & E & E' & <-).
  destruct (Nat.lt_trichotomy (length l1) (length m1)) as [H|[H|H]]; auto; exfalso.
  - apply (NoDup_remove_2 _ _ _ Hn). rewrite E'.
    assert (Hv : nth_error (m1 ++ w :: m2) (length l1) = Some v) by (rewrite <- E, nth_error_app2, Nat.sub_diag; auto).
    rewrite nth_error_app1 in Hv by auto. apply nth_error_In in Hv. apply in_app_iff. auto.
  - rewrite E in Hn. apply (NoDup_remove_2 _ _ _ Hn). rewrite <- E'.
    assert (Hv : nth_error (l1 ++ v :: l2) (length m1) = Some w) by (rewrite E, nth_error_app2, Nat.sub_diag; auto).
    rewrite nth_error_app1 in Hv by auto. apply nth_error_In in Hv. apply in_app_iff. auto.
Qed.
Lemma sorted_nodup l : StronglySorted lt l -> NoDup l.
Proof.
  induction 1 as [|x l H IH Hf]; constructor; auto. rewrite Forall_forall in Hf. intros Hi. apply Hf in Hi. lia.
Qed.
Lemma sorted_app l1 l2 : StronglySorted lt (l1 ++ l2) <->
  StronglySorted lt l1 /\ StronglySorted lt l2 /\ forall x y, In x l1 -> In y l2 -> x < y.
Proof.
  induction l1 as [|a l1 IH]; simpl.
  - split; [intros H; split; [constructor|split; auto; intros x y []]|tauto].
  - split.
    + intros H. inversion H as [|? ? Hs Hf]; subst. apply IH in Hs. destruct Hs as (H1 & H2 & H3). rewrite Forall_forall in Hf.
      split; [constructor; auto; apply Forall_forall; intros y Hy; apply Hf, in_app_iff; auto|]. split; auto.
      intros x y [<-|Hx] Hy; auto. apply Hf, in_app_iff; auto.
    + intros (H1 & H2 & H3). inversion H1 as [|? ? Hs Hf]; subst. rewrite Forall_forall in Hf. constructor.
      * apply IH. split; auto.
      * apply Forall_forall. intros y Hy. apply in_app_iff in Hy. destruct Hy; auto.
Qed.
Lemma facet_simplex n t i s : simplex n t -> facet t i s -> s <> [] -> simplex n s.
Proof.
  intros (_ & Hs & Hb) (l1 & v & l2 & -> & -> & _) Hne. split; auto. apply sorted_app in Hs. destruct Hs as (H1 & H2 & H3).
  inversion H2 as [|? ? H4 H5]; subst. split.
  - apply sorted_app. split; auto. split; auto. intros x y Hx Hy. apply H3; simpl; auto.
  - rewrite Forall_forall in *. intros x Hx. apply Hb. apply in_app_iff in Hx. apply in_app_iff. simpl. tauto.
Qed.
Lemma facet_incl t i s : facet t i s -> incl s t.
Proof. intros (l1 & v & l2 & -> & -> & _) x Hx. apply in_app_iff in Hx. apply in_app_iff. simpl. tauto. Qed.

Lemma code_rem n t i : (code n (rem i t) <= code n t)%N.
Proof.
  revert i. induction t as [|v t IH]; intros i; destruct i; cbn [rem code]; try reflexivity.
  - nia.
  - specialize (IH i). nia.
Qed.

(** ** Insertion of a vertex *)
Definition pos (v : nat) (s : list nat) : nat := length (filter (fun x => x <? v) s).
Definition ins (v : nat) (s : list nat) : list nat := filter (fun x => x <? v) s ++ [v] ++ filter (fun x => v <? x) s.
Lemma filter_all {A} (p : A -> bool) l : (forall x, In x l -> p x = true) -> filter p l = l.
Proof. induction l as [|x l IH]; simpl; intros H; auto. rewrite H by auto. rewrite IH; auto. Qed.
Lemma filter_none {A} (p : A -> bool) l : (forall x, In x l -> p x = false) -> filter p l = [].
Proof. induction l as [|x l IH]; simpl; intros H; auto. rewrite H by auto. rewrite IH; auto. Qed.
Lemma split_filters A B v : (forall x, In x A -> x < v) -> (forall x, In x B -> v < x) ->
  filter (fun x => x <? v) (A ++ B) = A /\ filter (fun x => v <? x) (A ++ B) = B.
Proof.
  intros HA HB. rewrite !filter_app. split.
  - rewrite (filter_all _ A), (filter_none _ B), app_nil_r; auto; intros x Hx; [apply Nat.ltb_ge; apply HB in Hx|apply Nat.ltb_lt; apply HA in Hx]; lia.
  - rewrite (filter_none _ A), (filter_all _ B); auto; intros x Hx; [apply Nat.ltb_lt; apply HB in Hx|apply Nat.ltb_ge; apply HA in Hx]; lia.
Qed.
Lemma sorted_split s v : StronglySorted lt s -> ~ In v s -> 
  s = filter (fun x => x <? v) s ++ filter (fun x => v <? x) s.
Proof.
  induction 1 as [|x s Hs IH Hf]; intros Hn; auto. simpl in Hn. rewrite Forall_forall in Hf.
  cbn [filter]. destruct (Nat.ltb_spec x v) as [H|H].
  - destruct (Nat.ltb_spec v x); [lia|]. simpl. f_equal. apply IH. tauto.
  - destruct (Nat.ltb_spec v x) as [H'|H']; [|lia].
    rewrite (filter_none _ s), (filter_all _ s); auto; intros y Hy; apply Hf in Hy; [apply Nat.ltb_lt|apply Nat.ltb_ge]; lia.
Qed.
(** the simplices of which [s] is a facet are those obtained by inserting a vertex *)
Lemma facet_ins n t i s : simplex n t -> facet t i s -> exists v, v < n /\ ~ In v s /\ t = ins v s /\ i = pos v s.
Proof.
  intros (_ & Hs & Hb) (l1 & v & l2 & -> & -> & <-). exists v. apply sorted_app in Hs. destruct Hs as (H1 & H2 & H3).
  inversion H2 as [|? ? H4 H5]; subst. rewrite Forall_forall in H5.
  destruct (@split_filters l1 l2 v) as [E1 E2]; auto; [intros x Hx; apply H3; simpl; auto|].
  split; [rewrite Forall_forall in Hb; apply Hb, in_app_iff; simpl; auto|]. split.
  - intros H. apply in_app_iff in H. destruct H as [H|H]; [specialize (H3 v v H (or_introl eq_refl)); lia|apply H5 in H; lia].
  - unfold ins, pos. now rewrite E1, E2.
Qed.
Lemma ins_facet s v : StronglySorted lt s -> ~ In v s -> facet (ins v s) (pos v s) s.
Proof.
  intros Hs Hv. exists (filter (fun x => x <? v) s), v, (filter (fun x => v <? x) s). split; auto. split; auto. apply sorted_split; auto.
Qed.
Lemma ins_simplex n s v : StronglySorted lt s -> Forall (fun v => v < n) s -> v < n -> ~ In v s -> simplex n (ins v s).
Proof.
  intros Hs Hb Hv Hn. unfold ins. split; [intros E; apply app_eq_nil in E; destruct E; discriminate|]. split.
  - rewrite (@sorted_split s v) in Hs by auto. apply sorted_app in Hs. destruct Hs as (H1 & H2 & H3).
    apply sorted_app. split; auto. split.
    + simpl. constructor; auto. apply Forall_forall. intros x Hx. apply filter_In in Hx. apply Nat.ltb_lt. tauto.
    + intros x y Hx [<-|Hy]; [apply filter_In in Hx; apply Nat.ltb_lt; tauto|]. auto.
  - rewrite Forall_forall in *. intros x Hx. apply in_app_iff in Hx. destruct Hx as [Hx|[<-|Hx]]; auto; apply filter_In in Hx; apply Hb; tauto.
Qed.
Lemma ins_length s v : StronglySorted lt s -> ~ In v s -> length (ins v s) = S (length s).
Proof. intros Hs Hv. eapply facet_length. apply ins_facet; eauto. Qed.
Lemma ins_inj s v w : StronglySorted lt s -> ~ In v s -> ~ In w s -> ins v s = ins w s -> v = w.
Proof.
  intros Hs Hv Hw E. assert (H : In v (ins w s)) by (rewrite <- E; unfold ins; apply in_app_iff; simpl; auto).
  unfold ins in H. apply in_app_iff in H. destruct H as [H|[->|H]]; auto; apply filter_In in H; tauto.
Qed.

(** ** Signed sums over facets *)
Section Signs.
  Context {K : coeffT}.
  Add Field KFR : (F_field K).

  Lemma sign_S i : sign K (S i) = fopp (sign K i).
  Proof. unfold sign. rewrite Nat.even_succ, <- Nat.negb_even. destruct (Nat.even i); simpl negb; cbn iota; ring. Qed.
  Lemma parity_sign i : Some (parity i : K) = sign K i.
  Proof. unfold parity, sign. destruct (Nat.even i); auto. Qed.
  Lemma sign_neq0 i : sign K i <> f0.
  Proof. rewrite <- parity_sign. discriminate. Qed.

  Fixpoint bsum (t : list nat) (f : list nat -> option K) : option K :=
    match t with
    | [] => f0
    | v :: t => fsub (f t) (bsum t (fun x => f (v :: x)))
    end.
  Lemma bsum_ext t f g : (forall i, i < length t -> f (rem i t) = g (rem i t)) -> bsum t f = bsum t g.
  Proof.
    revert f g. induction t as [|v t IH]; intros f g H; simpl; auto. pose proof (H 0 ltac:(simpl; lia)) as H0. cbn [rem] in H0. rewrite H0.
    f_equal. apply IH. intros i Hi. apply (H (S i)). simpl. lia.
  Qed.
  Lemma bsum_seq t f : bsum t f = vsum (seq 0 (length t)) (fun i => fmul (sign K i) (f (rem i t))).
  Proof.
    revert f. induction t as [|v t IH]; intros f; auto. cbn [bsum length seq vsum rem]. rewrite IH.
    rewrite <- seq_shift, vsum_map.
    assert (E : vsum (seq 0 (length t)) (fun i => fmul (sign K (S i)) (f (rem (S i) (v :: t)))) =
      fmul (fopp f1) (vsum (seq 0 (length t)) (fun i => fmul (sign K i) (f (v :: rem i t))))).
    { rewrite <- vsum_mul_l. apply vsum_ext. intros i _. rewrite sign_S. cbn [rem]. ring. }
    cbn [rem] in E |- *. rewrite E. change (sign K 0) with (@f1 K). ring.
  Qed.
  Lemma bsum_sub t f g : bsum t (fun x => fsub (f x) (g x)) = fsub (bsum t f) (bsum t g).
  Proof. revert f g. induction t as [|v t IH]; intros f g; cbn [bsum]; [ring|]. rewrite IH. ring. Qed.
  Lemma bsum_bsum t : forall f, bsum t (fun x => bsum x f) = f0.
  Proof.
    induction t as [|v t IH]; intros f; cbn [bsum]; auto. rewrite bsum_sub, IH. ring.
  Qed.

  (** the coefficient of [s] in the boundary of [t] *)
  Definition inc (t s : list nat) : option K := bsum t (fun x => if list_eq_dec Nat.eq_dec x s then f1 else f0).
  Lemma inc_facet t i s : NoDup t -> facet t i s -> inc t s = sign K i.
  Proof.
    intros Hn Hf. unfold inc. rewrite bsum_seq. pose proof Hf as Hf'. apply facet_rem in Hf'. destruct Hf' as [Hi ->].
    rewrite (@vsum_single K nat _ _ i).
    - destruct (list_eq_dec Nat.eq_dec (rem i t) (rem i t)); [ring|congruence].
    - apply seq_NoDup.
    - apply in_seq. lia.
    - intros j Hj Hne. apply in_seq in Hj. destruct (list_eq_dec Nat.eq_dec (rem j t) (rem i t)) as [E|]; [|ring].
      exfalso. apply Hne. eapply facet_unique; [exact Hn| |exact Hf]. apply facet_rem. split; auto. lia.
  Qed.
  Lemma inc_none t s : (forall i, ~ facet t i s) -> inc t s = f0.
  Proof.
    intros H. unfold inc. rewrite bsum_seq. apply vsum_0. intros i Hi. apply in_seq in Hi.
    destruct (list_eq_dec Nat.eq_dec (rem i t) s) as [E|]; [|ring]. exfalso. apply (H i). apply facet_rem. split; auto. lia.
  Qed.
  Lemma facet_dec t s : (exists i, facet t i s) \/ forall i, ~ facet t i s.
  Proof.
    destruct (Exists_dec (fun i => s = rem i t) (seq 0 (length t))) as [H|H].
    - intros i. destruct (list_eq_dec Nat.eq_dec s (rem i t)); auto.
    - left. apply Exists_exists in H. destruct H as (i & Hi & E). exists i. apply facet_rem. apply in_seq in Hi. split; auto. lia.
    - right. intros i Hf. apply H. apply Exists_exists. apply facet_rem in Hf. exists i. split; [apply in_seq; lia|tauto].
  Qed.
  Lemma inc_nonzero t s : inc t s <> f0 -> exists i, facet t i s.
  Proof. intros H. destruct (facet_dec t s) as [|Hn]; auto. exfalso. apply H. apply inc_none. auto. Qed.

  (** the boundary of the boundary vanishes: [L] lists the facets of [u] that have [s] as a facet *)
  Lemma inc_inc (L : list (list nat)) u s : NoDup L ->
    (forall t i, facet u i t -> inc t s <> f0 -> In t L) ->
    vsum L (fun t => fmul (inc u t) (inc t s)) = f0.
  Proof.
    intros HL Hin.
    assert (E : vsum L (fun t => fmul (inc u t) (inc t s)) = bsum u (fun x => inc x s)).
    { rewrite bsum_seq.
      transitivity (vsum (seq 0 (length u)) (fun i => vsum L (fun t => fmul (sign K i) (fmul (if list_eq_dec Nat.eq_dec (rem i u) t then f1 else f0) (inc t s))))).
      - rewrite vsum_swap. apply vsum_ext. intros t _. unfold inc at 1. rewrite bsum_seq.
        transitivity (fmul (inc t s) (vsum (seq 0 (length u)) (fun i => fmul (sign K i) (if list_eq_dec Nat.eq_dec (rem i u) t then f1 else f0)))); [ring|].
        rewrite <- vsum_mul_l. apply vsum_ext. intros i _. ring.
      - apply vsum_ext. intros i Hi. apply in_seq in Hi. rewrite vsum_mul_l. f_equal.
        destruct (in_dec (list_eq_dec Nat.eq_dec) (rem i u) L) as [H|H].
        + rewrite (@vsum_single K (list nat) L _ (rem i u)); auto.
          * destruct (list_eq_dec Nat.eq_dec (rem i u) (rem i u)); [ring|congruence].
          * intros t _ Hne. destruct (list_eq_dec Nat.eq_dec (rem i u) t); [congruence|ring].
        + rewrite vsum_0.
          * destruct (fscalar_dec (inc (rem i u) s)) as [->|Hn]; auto. exfalso. apply H. apply (Hin _ i); auto. apply facet_rem. split; auto. lia.
          * intros t Ht. destruct (list_eq_dec Nat.eq_dec (rem i u) t) as [<-|]; [contradiction|ring]. }
    rewrite E. apply bsum_bsum.
  Qed.
End Signs.

(** ** Columns *)
Definition outside (s : list nat) (v : nat) : bool := negb (existsb (Nat.eqb v) s).
Lemma outside_iff s v : outside s v = true <-> ~ In v s.
Proof.
  unfold outside. rewrite negb_true_iff. split.
  - intros H Hi. assert (existsb (Nat.eqb v) s = true); [|congruence]. apply existsb_exists. exists v. split; auto. apply Nat.eqb_refl.
  - intros H. destruct (existsb (Nat.eqb v) s) eqn:E; auto. apply existsb_exists in E. destruct E as (x & Hx & E). apply Nat.eqb_eq in E. subst. contradiction.
Qed.

Section Columns.
  Context {K : coeffT} {F : ordT}.
  Add Field KFR2 : (F_field K).
  Variables (uw : N) (d : list (list F)).
  Notation n := (length d).
  Notation bcol := (rips_boundary_column (K:=K) uw d).
  Notation ccol := (rips_coboundary_column (K:=K) uw d).

  Definition face_terms (t : list nat) : list (K * rips_index) :=
    flat_map (fun i => match rem i t with [] => [] | _ => [(parity i, code n (rem i t))] end) (seq 0 (length t)).

  Lemma boundary_column_ok t : simplex n t -> (code n t < uw)%N -> bcol (code n t) = Ok (face_terms t).
  Proof.
    intros (Hne & Hs & Hb) Hu. unfold rips_boundary_column. rewrite to_vec_code by auto. cbn [bind].
    rewrite (@filter_mapM_pure _ _ _ (fun i => match rem i t with [] => None | _ => Some (parity i : K, code n (rem i t)) end)).
    - unfold face_terms. f_equal. apply flat_map_ext. intros i. now destruct (rem i t).
    - intros i Hi. apply in_seq in Hi. rewrite all_but_rem by lia. 
      assert (Hc : (code n (rem i t) < uw)%N) by (eapply N.le_lt_trans; [apply code_rem|auto]).
      rewrite from_indices_spec by lia. apply N.ltb_lt in Hc. rewrite Hc. cbn [bind]. now destruct (rem i t).
  Qed.
  Lemma face_terms_in t k r : In (k, r) (face_terms t) -> exists i s, facet t i s /\ s <> [] /\ r = code n s /\ Some k = sign K i.
  Proof.
    unfold face_terms. intros H. apply in_flat_map in H. destruct H as (i & Hi & H). apply in_seq in Hi.
    destruct (rem i t) as [|x y] eqn:E; [destruct H|]. destruct H as [[= <- <-]|[]]. exists i, (rem i t). rewrite E.
    split; [apply facet_rem; split; [lia|auto]|]. split; [discriminate|]. split; auto. apply parity_sign.
  Qed.
  Lemma face_terms_coef t s : simplex n t -> simplex n s -> coef (face_terms t) (code n s : rips_index) = inc t s.
  Proof.
    intros (_ & _ & Hbt) (Hns & _ & Hbs). unfold face_terms. rewrite (@coef_flat_map K rips_index nat). unfold inc. rewrite bsum_seq.
    apply vsum_ext. intros i Hi. apply in_seq in Hi. destruct (list_eq_dec Nat.eq_dec (rem i t) s) as [->|Hne].
    - destruct s as [|x y]; [congruence|]. cbn [coef]. rewrite oeqb_refl. rewrite parity_sign. change (@None K) with (@f0 K). ring.
    - destruct (rem i t) as [|x y] eqn:E; [cbn [coef]; ring|]. cbn [coef].
      destruct (oeqb_spec (T:=rips_index) (code n (x :: y)) (code n s)) as [Ec|_]; [|ring].
      exfalso. apply Hne. revert Ec. apply code_inj; auto. rewrite <- E. rewrite Forall_forall in *. intros w Hw. apply Hbt.
      eapply facet_incl; [|exact Hw]. apply facet_rem. split; [|reflexivity]. lia.
  Qed.
  Theorem boundary_coef t s : simplex n t -> (code n t < uw)%N -> simplex n s -> mden bcol (code n t) (code n s) = inc t s.
  Proof. intros Ht Hu Hs. unfold mden. rewrite boundary_column_ok by auto. now apply face_terms_coef. Qed.

  (** *** the coboundary iterator *)
  Lemma cob_seek_spec base maxv : StronglySorted lt base -> forall fuel nv p,
    p <= length base -> Forall (fun x => x < nv) (firstn p base) ->
    (length base - p) + (maxv + 1 - nv) < fuel ->
    cob_seek fuel base maxv nv p =
      Ok (match filter (outside base) (seq nv (maxv + 1 - nv)) with [] => None | v :: _ => Some (v, pos v base) end) /\
    (forall v l, filter (outside base) (seq nv (maxv + 1 - nv)) = v :: l ->
       nv <= v /\ v <= maxv /\ l = filter (outside base) (seq (v + 1) (maxv + 1 - (v + 1))) /\
       pos v base <= length base /\ firstn (pos v base) base = filter (fun x => x <? v) base /\
       skipn (pos v base) base = filter (fun x => v <? x) base).
  Proof.
    intros Hs. induction fuel as [|fuel IH]; intros nv p Hp Hlt Hf; [lia|]. cbn [cob_seek].
    assert (Hhere : ~ In nv base -> p = pos nv base -> firstn p base = filter (fun x => x <? nv) base -> nv <= maxv ->
       forall v l, filter (outside base) (seq nv (maxv + 1 - nv)) = v :: l ->
        v = nv /\ nv <= v /\ v <= maxv /\ l = filter (outside base) (seq (v + 1) (maxv + 1 - (v + 1))) /\
       pos v base <= length base /\ firstn (pos v base) base = filter (fun x => x <? v) base /\
       skipn (pos v base) base = filter (fun x => v <? x) base).
    { intros Hn Ep Ef Hle v l. replace (maxv + 1 - nv) with (S (maxv - nv)) by lia. cbn [seq filter].
      rewrite (proj2 (outside_iff base nv) Hn). intros [= <- <-]. split; auto. split; auto. split; auto.
      split; [f_equal; f_equal; lia|]. rewrite <- Ep. split; auto. split; auto.
      pose proof (@sorted_split base nv Hs Hn) as Esp. rewrite <- Ef in Esp. pose proof (firstn_skipn p base) as Efs.
      rewrite Esp in Efs at 3. apply app_inv_head in Efs. auto. }
    destruct (Nat.ltb_spec maxv nv) as [Hmv|Hmv].
    { replace (maxv + 1 - nv) with 0 by lia. split; [reflexivity|]. intros v l H. discriminate. }
    destruct (nth_error base p) as [v|] eqn:E.
    - pose proof E as E'. apply nth_error_split in E'. destruct E' as (l1 & l2 & Eb & El).
      assert (Ef1 : firstn p base = l1) by (rewrite Eb, <- El, firstn_app, Nat.sub_diag, firstn_all; simpl; apply app_nil_r).
      rewrite Ef1 in Hlt. rewrite Forall_forall in Hlt. 
      pose proof Hs as Hs'. rewrite Eb in Hs'. apply sorted_app in Hs'. destruct Hs' as (S1 & S2 & S3).
      apply StronglySorted_inv in S2. destruct S2 as [S4 S5]. rewrite Forall_forall in S5.
      assert (Hpl : p < length base) by (apply nth_error_Some; congruence).
      destruct (Nat.compare_spec v nv) as [Ev|Ev|Ev].
      + subst v. destruct (IH (nv + 1) p) as [I1 I2]; auto; [rewrite Ef1; apply Forall_forall; intros x Hx; apply Hlt in Hx; lia|lia|].
        assert (Hin : outside base nv = false).
        { destruct (outside base nv) eqn:Eo; auto. apply outside_iff in Eo. exfalso. apply Eo. rewrite Eb. apply in_app_iff. simpl; auto. }
        replace (maxv + 1 - nv) with (S (maxv + 1 - (nv + 1))) by lia. cbn [seq filter]. rewrite Hin.
        replace (S nv) with (nv + 1) by lia. split; auto. intros v l H. destruct (I2 v l H) as [H1 H2]. split; [lia|auto].
      + destruct (IH nv (p + 1)) as [I1 I2]; auto; [lia| |lia].
        rewrite Eb. replace (p + 1) with (length l1 + 1) by lia. rewrite firstn_app_2. simpl. apply Forall_forall. intros x Hx.
        apply in_app_iff in Hx. destruct Hx as [Hx|[<-|[]]]; auto.
      + destruct (@split_filters l1 (v :: l2) nv) as [F1 F2]; auto.
        { intros x [<-|Hx]; auto. apply S5 in Hx. lia. }
        rewrite <- Eb in F1, F2.
        assert (Hn : ~ In nv base).
        { rewrite Eb. intros H. apply in_app_iff in H. destruct H as [H|[H|H]]; [apply Hlt in H; lia|lia|apply S5 in H; lia]. }
        assert (Hpos : p = pos nv base) by (unfold pos; rewrite F1; auto).
        assert (Hg : firstn p base = filter (fun x => x <? nv) base) by congruence.
        split; [|intros w l Hw; destruct (Hhere Hn Hpos Hg Hmv w l Hw) as (_ & H); exact H].
        replace (maxv + 1 - nv) with (S (maxv - nv)) by lia. cbn [seq filter]. rewrite (proj2 (outside_iff base nv) Hn). now rewrite <- Hpos.
    - apply nth_error_None in E. assert (p = length base) by lia. subst p. rewrite firstn_all in Hlt.
      rewrite Forall_forall in Hlt.
      assert (F1 : filter (fun x => x <? nv) base = base) by (apply filter_all; intros x Hx; apply Nat.ltb_lt; auto).
      assert (Hn : ~ In nv base) by (intros H; apply Hlt in H; lia).
      assert (Hpos : length base = pos nv base) by (unfold pos; now rewrite F1).
      assert (Hg : firstn (length base) base = filter (fun x => x <? nv) base) by (rewrite firstn_all; auto).
      split; [|intros w l Hw; destruct (Hhere Hn Hpos Hg Hmv w l Hw) as (_ & H); exact H].
      replace (maxv + 1 - nv) with (S (maxv - nv)) by lia. cbn [seq filter]. rewrite (proj2 (outside_iff base nv) Hn). now rewrite <- Hpos.
  Qed.

  Definition cob_item (m : nat) (base : list nat) (v : nat) : K * rips_index * nat :=
    (parity (pos v base), code m (ins v base), v + 1).

  Lemma cob_collect_spec base maxv : StronglySorted lt base ->
    (forall v, v <= maxv -> ~ In v base -> (code (maxv + 1) (ins v base) < uw)%N) ->
    forall fuel nv p, p <= length base -> Forall (fun x => x < nv) (firstn p base) -> maxv + 1 - nv < fuel ->
    cob_collect (K:=K) uw fuel base maxv (nv, p) = Ok (map (cob_item (maxv + 1) base) (filter (outside base) (seq nv (maxv + 1 - nv)))).
  Proof.
    intros Hs Hfit. induction fuel as [|fuel IH]; intros nv p Hp Hlt Hf; [lia|]. cbn [cob_collect]. unfold cob_next. cbn [fst snd].
    destruct (@cob_seek_spec base maxv Hs (length base + maxv + 2) nv p Hp Hlt ltac:(lia)) as [E1 E2]. rewrite E1. cbn [bind].
    destruct (filter (outside base) (seq nv (maxv + 1 - nv))) as [|v l] eqn:El; [reflexivity|].
    destruct (E2 v l eq_refl) as (H1 & H2 & H3 & H4 & H5 & H6).
    destruct (Nat.ltb_spec (length base) (pos v base)) as [|_]; [lia|]. rewrite H5, H6. fold (ins v base).
    assert (Hv : ~ In v base).
    { apply outside_iff. assert (In v (filter (outside base) (seq nv (maxv + 1 - nv)))) by (rewrite El; simpl; auto). apply filter_In in H. tauto. }
    rewrite from_indices_ok; [|unfold ins; intros E; apply app_eq_nil in E; destruct E; discriminate|apply Hfit; auto]. cbn [bind unwrap].
    rewrite IH; auto; [|rewrite H5; apply Forall_forall; intros x Hx; apply filter_In in Hx; destruct Hx as [_ Hx]; apply Nat.ltb_lt in Hx; lia|lia].
    cbn [bind map]. now rewrite <- H3.
  Qed.

  Theorem coboundary_iter_ok s m : StronglySorted lt s -> 0 < m ->
    (forall v, v < m -> ~ In v s -> (code m (ins v s) < uw)%N) ->
    coboundary_iter (K:=K) uw s m = Ok (map (cob_item m s) (filter (outside s) (seq 0 m))).
  Proof.
    intros Hs Hm Hfit. destruct m as [|maxv]; [lia|]. cbn [coboundary_iter].
    replace (S maxv) with (maxv + 1) in * by lia. rewrite cob_collect_spec; auto; try lia.
    - now rewrite Nat.sub_0_r.
    - intros v Hv. apply Hfit. lia.
    - simpl. constructor.
  Qed.

  Definition coface_terms (s : list nat) : list (K * rips_index) :=
    map (fun v => (parity (pos v s), code n (ins v s))) (filter (outside s) (seq 0 n)).
  (** every coface of [s] by one vertex has a code below the word bound *)
  Definition cofaces_fit (s : list nat) : Prop := forall t i, simplex n t -> facet t i s -> (code n t < uw)%N.
  Lemma cofaces_fit_ins s : StronglySorted lt s -> Forall (fun v => v < n) s -> cofaces_fit s ->
    forall v, v < n -> ~ In v s -> (code n (ins v s) < uw)%N.
  Proof. intros Hs Hb Hf v Hv Hn. apply (Hf _ (pos v s)); [apply ins_simplex; auto|apply ins_facet; auto]. Qed.

  Theorem coboundary_column_ok s : simplex n s -> cofaces_fit s -> ccol (code n s) = Ok (coface_terms s).
  Proof.
    intros (Hne & Hs & Hb) Hf. unfold rips_coboundary_column. rewrite to_vec_code by auto. cbn [bind].
    assert (Hn : 0 < n) by (destruct s as [|v s]; [congruence|]; inversion Hb; lia).
    rewrite coboundary_iter_ok; auto; [|apply cofaces_fit_ins; auto]. cbn [bind]. rewrite map_map. reflexivity.
  Qed.
  Lemma coface_terms_in s k r : simplex n s -> In (k, r) (coface_terms s) ->
    exists i t, simplex n t /\ facet t i s /\ r = code n t /\ Some k = sign K i.
  Proof.
    intros (Hne & Hs & Hb) H. unfold coface_terms in H. apply in_map_iff in H. destruct H as (v & [= <- <-] & Hv).
    apply filter_In in Hv. destruct Hv as [Hv Ho]. apply in_seq in Hv. apply outside_iff in Ho.
    exists (pos v s), (ins v s). split; [apply ins_simplex; auto; lia|]. split; [apply ins_facet; auto|]. split; auto. apply parity_sign.
  Qed.
  Theorem coface_terms_coef s t : simplex n s -> simplex n t -> coef (coface_terms s) (code n t : rips_index) = inc t s.
  Proof.
    intros (Hne & Hs & Hb) Ht. unfold coface_terms. rewrite coef_vsum, vsum_map. cbn [fst snd].
    destruct (facet_dec t s) as [(i & Hf)|Hno].
    - pose proof (proj1 (proj2 Ht)) as Hst. rewrite (inc_facet (sorted_nodup Hst) Hf).
      destruct (facet_ins Ht Hf) as (v & Hv & Hn & -> & ->).
      rewrite (@vsum_single K nat _ _ v).
      + rewrite oeqb_refl. apply parity_sign.
      + apply NoDup_filter, seq_NoDup.
      + apply filter_In. split; [apply in_seq; lia|]. now apply outside_iff.
      + intros w Hw Hne'. apply filter_In in Hw. destruct Hw as [Hw Ho]. apply in_seq in Hw. apply outside_iff in Ho.
        destruct (oeqb_spec (T:=rips_index) (code n (ins w s)) (code n (ins v s))) as [Ec|]; auto. exfalso. apply Hne'.
        apply (@ins_inj s w v); auto. revert Ec. apply code_inj; [|apply Ht]. apply ins_simplex; auto. lia.
    - rewrite inc_none by auto. apply vsum_0. intros w Hw. apply filter_In in Hw. destruct Hw as [Hw Ho]. apply in_seq in Hw. apply outside_iff in Ho.
      destruct (oeqb_spec (T:=rips_index) (code n (ins w s)) (code n t)) as [Ec|]; auto. exfalso.
      apply (Hno (pos w s)). assert (Hi : simplex n (ins w s)) by (apply ins_simplex; auto; lia).
      apply code_inj in Ec; [|apply Hi|apply Ht]. rewrite <- Ec. apply ins_facet; auto.
  Qed.
  Theorem coboundary_coef s t : simplex n s -> cofaces_fit s -> simplex n t -> mden ccol (code n s) (code n t) = inc t s.
  Proof. intros Hs Hf Ht. unfold mden. rewrite coboundary_column_ok by auto. now apply coface_terms_coef. Qed.
  Lemma coface_terms_nodup s : simplex n s -> NoDup (map snd (coface_terms s)).
  Proof.
    intros (Hne & Hs & Hb). unfold coface_terms. rewrite map_map. cbn [snd].
    assert (H : NoDup (filter (outside s) (seq 0 n))) by apply NoDup_filter, seq_NoDup.
    assert (Hin : forall v, In v (filter (outside s) (seq 0 n)) -> v < n /\ ~ In v s).
    { intros v Hv. apply filter_In in Hv. destruct Hv as [H1 H2]. apply in_seq in H1. apply outside_iff in H2. split; auto; lia. }
    induction H as [|v l Hv Hl IH]; simpl; constructor; [|apply IH; intros w Hw; apply Hin; simpl; auto].
    intros Hx. apply in_map_iff in Hx. destruct Hx as (w & E & Hw). apply Hv.
    destruct (Hin v (or_introl eq_refl)) as [V1 V2]. destruct (Hin w (or_intror Hw)) as [W1 W2].
    apply code_inj in E; [|apply ins_simplex; auto|apply ins_simplex; auto]. apply ins_inj in E; auto. now subst w.
  Qed.
End Columns.
