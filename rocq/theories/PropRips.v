(** Property theorems C35-C43: the Vietoris-Rips matrices and bases. *)
From Verif Require Import Base Fields FieldsFacts Spec LinAlg Columns ColumnsFacts Matrices SpecMat MatricesFacts ReadOffProofs Rips SpecRips RipsCode RipsFacts RipsBasis.
From Coq Require Import Ring_theory Sorted Lia.
Set Implicit Arguments.

(** ** C35 *)
Theorem C35_index_roundtrip :
  forall (uw : N) (n : nat) (s : list nat) (c : N),
  (0 < uw)%N -> Forall (fun v => v < n) s ->
  from_indices uw n s = Ok (Some c) ->
  c = code n s /\ to_vec n c = Ok s /\ rips_dimension n c = Ok (length s - 1).
Proof.
  intros uw n s c Hu Hs E. rewrite from_indices_spec in E by auto. destruct (code n s <? uw)%N; [|discriminate].
  destruct s as [|v t] eqn:Es; [discriminate|]. rewrite <- Es in *. injection E as <-. split; auto.
  assert (Ht : to_vec n (code n s) = Ok s) by (apply to_vec_code; auto). split; auto.
  unfold rips_dimension. rewrite Ht. cbn [bind]. rewrite Es. simpl. f_equal. lia.
Qed.
Theorem C35_index_injective :
  forall (uw : N) (n : nat) (s t : list nat) (c : N),
  (0 < uw)%N -> Forall (fun v => v < n) s -> Forall (fun v => v < n) t ->
  from_indices uw n s = Ok (Some c) -> from_indices uw n t = Ok (Some c) -> s = t.
Proof.
  intros uw n s t c Hu Hs Ht E1 E2. destruct (C35_index_roundtrip Hu Hs E1) as (_ & A & _). destruct (C35_index_roundtrip Hu Ht E2) as (_ & B & _). congruence.
Qed.
Theorem C35_none_iff_empty :
  forall (uw : N) (n : nat) (s : list nat), (0 < uw)%N -> (from_indices uw n s = Ok None <-> s = []).
Proof.
  intros uw n s Hu. rewrite from_indices_spec by auto. split; [|intros ->; simpl; destruct (N.ltb_spec 0 uw); auto; lia].
  destruct (code n s <? uw)%N; [|discriminate]. destruct s; auto. discriminate.
Qed.
Print Assumptions C35_index_roundtrip.
Print Assumptions C35_index_injective.
Print Assumptions C35_none_iff_empty.
Example C35_ex : from_indices (2 ^ 64) 5 [0; 2; 4] = Ok (Some 199%N) /\ to_vec 5 199 = Ok [0; 2; 4] /\ rips_dimension 5 199 = Ok 2.
Proof. vm_compute. auto. Qed.

(** ** C36 *)
Theorem C36_overflow_exact :
  forall (uw : N) (n : nat) (s : list nat), (0 < uw)%N ->
  (from_indices uw n s = Panic <-> (uw <= code n s)%N) /\
  ((code n s < uw)%N -> exists o, from_indices uw n s = Ok o).
Proof.
  intros uw n s Hu. rewrite from_indices_spec by auto. destruct (N.ltb_spec (code n s) uw).
  - split; [split; [discriminate|lia]|eauto].
  - split; [split; auto|lia].
Qed.
(** a simplex of dimension [k] whose codes cannot fit: the top digit alone is too large;
    and all simplices of dimension [k] fit when [(n+1)^(k+1)] does *)
Theorem C36_overflow_dimension :
  forall (uw : N) (n k : nat), (0 < uw)%N ->
  ((uw <= (N.of_nat n + 1) ^ N.of_nat k)%N -> forall s, length s = k + 1 -> from_indices uw n s = Panic) /\
  (((N.of_nat n + 1) ^ N.of_nat (k + 1) <= uw)%N -> forall s, Forall (fun v => v < n) s -> length s <= k + 1 -> from_indices uw n s <> Panic).
Proof.
  intros uw n k Hu. split.
  - intros H s Hl. apply C36_overflow_exact; auto. eapply N.le_trans; [exact H|].
    assert (Hne : s <> []) by (intros ->; simpl in Hl; lia). pose proof (@code_lower n s Hne) as L.
    replace (length s - 1) with k in L by lia. exact L.
  - intros H s Hs Hl E. apply C36_overflow_exact in E; auto. pose proof (code_bound Hs) as B.
    assert (((N.of_nat n + 1) ^ N.of_nat (length s) <= (N.of_nat n + 1) ^ N.of_nat (k + 1))%N) by (apply N.pow_le_mono_r; lia). lia.
Qed.
(** without overflow checks the index is the code modulo the word: two simplices whose codes differ by a
    multiple of the word receive the same index, and a non-empty simplex may receive none at all *)
Theorem C36_wrapping :
  forall (uw : N) (n : nat) (s : list nat), (0 < uw)%N ->
  from_indices_wrapping uw n s = (if (code n s mod uw =? 0)%N then None else Some (code n s mod uw)%N).
Proof. intros. now apply from_indices_wrapping_spec. Qed.
(** on a 64-bit machine with [2^16 - 1] points two distinct 4-simplices collide, and one has no index *)
Theorem C36_wrapping_collision :
  let n := N.to_nat 65535 in
  let s := [0; 1; 2; 3; 4] in let t := [0; 1; 2; 3; 5] in
  simplex n s /\ simplex n t /\ s <> t /\
  from_indices (2 ^ 64) n s = Panic /\
  from_indices_wrapping (2 ^ 64) n s = from_indices_wrapping (2 ^ 64) n t /\
  exists c, from_indices_wrapping (2 ^ 64) n s = Some c.
Proof.
  assert (Hsx : forall l, (l = [0; 1; 2; 3; 4] \/ l = [0; 1; 2; 3; 5]) -> simplex (N.to_nat 65535) l).
  { intros l [->| ->]; (split; [discriminate|split; [repeat constructor|]]); 
    apply Forall_forall; intros x Hx; simpl in Hx; assert (x <= 5) by lia; pose proof (N2Nat.id 65535); lia. }
  assert (Hn : N.of_nat (N.to_nat 65535) = 65535%N) by apply N2Nat.id.
  cbv zeta. generalize dependent (N.to_nat 65535). intros n Hsx Hn.
  split; [auto|]. split; [auto|]. split; [discriminate|].
  assert (E1 : code n [0; 1; 2; 3; 4] = 92234846281339633665%N) by (cbn [code]; rewrite Hn; vm_compute; reflexivity).
  assert (E2 : code n [0; 1; 2; 3; 5] = 110681590355049185281%N) by (cbn [code]; rewrite Hn; vm_compute; reflexivity).
  rewrite from_indices_spec by reflexivity. rewrite !from_indices_wrapping_spec by reflexivity. rewrite E1, E2.
  split; [reflexivity|]. split; [reflexivity|]. eexists. reflexivity.
Qed.
(** hypotheses met: with 16-bit words and 10 points, codes of 5-simplices never fit and codes of triangles always do *)
Example C36_ex : (2 ^ 16 <= (N.of_nat 10 + 1) ^ N.of_nat 5)%N /\ from_indices (2 ^ 16) 10 [0; 1; 2; 3; 4; 5] = Panic /\
  ((N.of_nat 10 + 1) ^ N.of_nat (2 + 1) <= 2 ^ 16)%N /\ from_indices (2 ^ 16) 10 [7; 8; 9] = Ok (Some (code 10 [7; 8; 9])).
Proof. repeat split; try reflexivity; vm_compute; discriminate. Qed.
Print Assumptions C36_overflow_exact.
Print Assumptions C36_overflow_dimension.
Print Assumptions C36_wrapping.
Print Assumptions C36_wrapping_collision.

(** ** C37 *)
(** any square table: the value recorded for a simplex is the largest of zero and the distances from an earlier
    to a later vertex *)
Definition ascending_value {F : ordT} (z : F) (d : list (list F)) (s : list nat) (f : F) : Prop :=
  ole z f /\ (forall w v, before s w v -> ole (dist z d w v) f) /\
  (f = z \/ exists w v, before s w v /\ dist z d w v = f).
Lemma ascending_unique {F : ordT} (z : F) d s f g : ascending_value z d s f -> ascending_value z d s g -> f = g.
Proof.
  intros (A1 & A2 & A3) (B1 & B2 & B3). apply ole_antisym.
  - destruct A3 as [->|(w & v & H & <-)]; auto.
  - destruct B3 as [->|(w & v & H & <-)]; auto.
Qed.

Theorem C37_bases_enumerate :
  forall (F : ordT) (uw : N) (z : F) (d : list (list F)) (max_dim : nat),
  wide d -> 1 <= max_dim -> codes_fit uw (length d) (max_dim + 1) ->
  exists bases, build_rips_bases uw z d max_dim = Ok bases /\ length bases = max_dim + 1 /\
    forall k l, nth_error bases k = Some l ->
      StronglySorted (@olt (pair_ord F rips_index)) l /\ NoDup (map snd l) /\
      forall f c, In (f, c) l <->
        exists s, simplex (length d) s /\ length s = k + 1 /\ c = code (length d) s /\ ascending_value z d s f.
Proof.
  intros F uw z d md Hsq Hmd Hfit. eexists. split; [now apply build_rips_bases_ok|]. rewrite built_nth. split; [now rewrite map_length, seq_length|].
  intros k l Hk. assert (Hkm : k <= md).
  { assert (k < length (map (sorted_basis z d md) (seq 0 (md + 1)))) by (apply nth_error_Some; rewrite Hk; discriminate). rewrite map_length, seq_length in H. lia. }
  rewrite nth_error_map in Hk. rewrite (nth_error_nth' _ 0) in Hk by (rewrite seq_length; lia). rewrite seq_nth in Hk by lia. simpl in Hk. injection Hk as <-.
  pose proof (sorted_basis_strict z d Hmd Hkm) as Hst. split; auto. 
  assert (Hin : forall p, In p (sorted_basis z d md k) <-> exists t, simplex (length d) t /\ length t = k + 1 /\ p = (uval z d t, code (length d) t)).
  { intros p. apply (@sorted_basis_in F z d md k p Hmd Hkm). }
  split.
  - apply nodup_map_in.
    + clear - Hst. induction Hst as [|x l H IH Hf]; constructor; auto. rewrite Forall_forall in Hf. intros Hx. apply Hf in Hx. now apply olt_irrefl in Hx.
    + intros a b Ha Hb E. apply Hin in Ha, Hb. destruct Ha as (s & Hs & _ & ->). destruct Hb as (t & Ht & _ & ->). simpl in E.
      apply code_inj in E; [now subst|apply Hs|apply Ht].
  - intros f c. rewrite Hin. split.
    + intros (s & Hs & Hl & [= -> ->]). exists s. split; auto; split; auto; split; auto; apply uval_spec.
    + intros (s & Hs & Hl & -> & Hf). exists s. split; auto. split; auto. f_equal. eapply ascending_unique; [exact Hf|]. apply uval_spec.
Qed.
(** for a table of distances that value is the diameter *)
Theorem C37_bases_diameter :
  forall (F : ordT) (uw : N) (z : F) (d : list (list F)) (max_dim : nat),
  rips_matrix z d -> 1 <= max_dim -> codes_fit uw (length d) (max_dim + 1) ->
  exists bases, build_rips_bases uw z d max_dim = Ok bases /\ length bases = max_dim + 1 /\
    forall k l, nth_error bases k = Some l ->
      StronglySorted (@olt (pair_ord F rips_index)) l /\ NoDup (map snd l) /\
      forall f c, In (f, c) l <->
        exists s, simplex (length d) s /\ length s = k + 1 /\ c = code (length d) s /\ diameter z d s f.
Proof.
  intros F uw z d md Hd Hmd Hfit. destruct (@C37_bases_enumerate F uw z d md (proj1 Hd) Hmd Hfit) as (bs & E & Hl & H).
  exists bs. split; auto. split; auto. intros k l Hk. destruct (H k l Hk) as (H1 & H2 & H3). split; auto. split; auto.
  intros f c. rewrite H3. split; intros (s & Hs & Hls & -> & Hf); exists s; (split; [auto|]); (split; [auto|]); (split; [auto|]).
  - assert (f = uval z d s) by (eapply ascending_unique; [exact Hf|apply uval_spec]). subst f. apply uval_diameter; auto; apply Hs.
  - assert (f = uval z d s) by (eapply diameter_unique; [exact Hf|apply uval_diameter; auto; apply Hs]). subst f. apply uval_spec.
Qed.
Print Assumptions C37_bases_enumerate.
Print Assumptions C37_bases_diameter.

(** four points on a line at 0, 1, 3, 7 *)
Definition line4 : list (list nat_ord) := [[0; 1; 3; 7]; [1; 0; 2; 6]; [3; 2; 0; 4]; [7; 6; 4; 0]].
Example line4_distance : distance_matrix (0 : nat_ord) line4.
Proof.
  assert (Hc : forall i, i < length line4 -> i = 0 \/ i = 1 \/ i = 2 \/ i = 3) by (simpl; lia).
  split; [|split; [|split]].
  - intros row H. simpl in H. decompose [or] H; subst; auto; tauto.
  - intros i j Hi Hj. apply Hc in Hi, Hj. decompose [or] Hi; decompose [or] Hj; subst; reflexivity.
  - intros i Hi. apply Hc in Hi. decompose [or] Hi; subst; reflexivity.
  - intros i j Hi Hj. apply Hc in Hi, Hj. decompose [or] Hi; decompose [or] Hj; subst; vm_compute; discriminate.
Qed.
Example line4_rips : rips_matrix (0 : nat_ord) line4.
Proof. exact (distance_rips line4_distance). Qed.
Example line4_fit k : k <= 27 -> codes_fit (2 ^ 64) (length line4) k.
Proof. intros H s Hs Hl. apply (@codes_fit_pow 4 (2 ^ 64) 27); auto; [vm_compute; discriminate|lia]. Qed.
Example C37_ex : build_rips_bases (2 ^ 64) (0 : nat_ord) line4 2 =
  Ok [[(0, 1%N); (0, 2%N); (0, 3%N); (0, 4%N)];
      [(1, 11%N); (2, 17%N); (3, 16%N); (4, 23%N); (6, 22%N); (7, 21%N)];
      [(3, 86%N); (6, 117%N); (7, 111%N); (7, 116%N)]].
Proof. vm_compute. reflexivity. Qed.

(** ** C38: which calls return *)
Theorem C38_build_rips_bases_returns_iff :
  forall (F : ordT) (uw : N) (z : F) (d : list (list F)) (max_dim : nat),
  wide d -> codes_fit uw (length d) (max_dim + 1) ->
  (exists bases, build_rips_bases uw z d max_dim = Ok bases) <-> (1 <= max_dim \/ length d <= 1).
Proof.
  intros F uw z d md Hsq Hfit. split.
  - intros [b E]. destruct md as [|md]; [|left; lia]. destruct (Nat.le_gt_cases (length d) 1) as [|Hn]; auto. exfalso.
    unfold build_rips_bases in E.
    assert (Es : seq 0 (length d) = 0 :: 1 :: seq 2 (length d - 2)).
    { replace (length d) with (S (S (length d - 2))) at 1 by lia. reflexivity. }
    rewrite Es in E. cbn [foldM] in E.
    assert (Hs0 : simplex (length d) [0]) by (split; [discriminate|split; repeat constructor; lia]).
    rewrite from_indices_ok in E; [|discriminate|apply Hfit; auto; simpl; lia]. cbn [bind unwrap push_at repeat Nat.add] in E.
    cbn [add_cofacets rev app nth_error unwrap bind length Nat.sub Nat.add] in E.
    destruct (Nat.eqb_spec 0 (length d - 1)) as [E0|_]; [lia|].
    assert (Es1 : seq 1 (length d - 1) = 1 :: seq 2 (length d - 2)).
    { replace (length d - 1) with (S (length d - 2)) by lia. reflexivity. }
    rewrite Es1 in E. cbn [foldM mapM] in E. rewrite (@dist_at_ok F z d Hsq) in E by lia. cbn [bind iter_max fold_left unwrap] in E.
    rewrite from_indices_spec in E.
    2:{ pose proof (Hfit _ Hs0 ltac:(simpl; lia)). lia. }
    destruct (_ <? uw)%N; cbn in E; discriminate.
  - intros [H|H]; [eexists; apply build_rips_bases_ok; auto|].
    destruct (length d) as [|[|n]] eqn:En; [| |lia].
    + unfold build_rips_bases. rewrite En. simpl. eauto.
    + unfold build_rips_bases. rewrite En. cbn [seq foldM].
      assert (Hs0 : simplex 1 [0]) by (split; [discriminate|split; repeat constructor; lia]).
      rewrite from_indices_ok; [|discriminate|apply Hfit; auto; simpl; lia].
      cbn [bind unwrap]. rewrite push_at_ok by (rewrite repeat_length; lia). cbn [bind add_cofacets rev app nth_error unwrap].
      rewrite En. cbn. eauto.
Qed.
(** in the remaining case - [max_dim = 0] and at least two points - it panics *)
Theorem C38_max_dim_zero_panics :
  forall (F : ordT) (uw : N) (z : F) (d : list (list F)), wide d -> 2 <= length d -> (0 < uw)%N ->
  build_rips_bases uw z d 0 = Panic.
Proof.
  intros F uw z d Hsq Hn Hu.
  unfold build_rips_bases.
  assert (Es : seq 0 (length d) = 0 :: 1 :: seq 2 (length d - 2)).
  { replace (length d) with (S (S (length d - 2))) at 1 by lia. reflexivity. }
  rewrite Es. cbn [foldM]. rewrite from_indices_spec by auto. destruct (_ <? uw)%N; [|reflexivity].
  cbn [bind unwrap push_at repeat Nat.add].
  cbn [add_cofacets rev app nth_error unwrap bind length Nat.sub Nat.add].
  destruct (Nat.eqb_spec 0 (length d - 1)) as [E0|_]; [lia|].
  assert (Es1 : seq 1 (length d - 1) = 1 :: seq 2 (length d - 2)).
  { replace (length d - 1) with (S (length d - 2)) by lia. reflexivity. }
  rewrite Es1. cbn [foldM mapM]. rewrite (@dist_at_ok F z d Hsq) by lia. cbn [bind iter_max fold_left unwrap].
  rewrite from_indices_spec by auto.
  destruct (_ <? uw)%N; reflexivity.
Qed.
Print Assumptions C38_build_rips_bases_returns_iff.
Print Assumptions C38_max_dim_zero_panics.
Example C38_ex : wide line4 /\ codes_fit (2 ^ 64) (length line4) 1 /\ build_rips_bases (2 ^ 64) (0 : nat_ord) line4 0 = Panic /\
  build_rips_bases (2 ^ 64) (0 : nat_ord) [[0 : nat_ord]] 0 = Ok [[(0, 1%N)]].
Proof. split; [apply line4_rips|]. split; [apply line4_fit; lia|]. vm_compute. auto. Qed.

(** ** C39 *)
Lemma list_sum_concat {A} (ls : list (list A)) : list_sum (map (@length A) ls) = length (concat ls).
Proof. induction ls as [|l ls IH]; simpl; auto. rewrite app_length, IH. reflexivity. Qed.
Lemma nth_error_ge {A} (l : list A) i : length l <= i -> nth_error l i = None.
Proof. apply nth_error_None. Qed.
(** the multi-dimensional basis object lists the concatenation of its parts, in order; an index that is out of range panics,
    as does a dimension that is out of range *)
Theorem C39_multi_basis_concatenates :
  forall (A : Type) (subs : list (basis A)) (ls : list (list A)),
  Forall2 (@enumerates A) subs ls ->
  enumerates (sb_total (multi_basis subs)) (concat ls) /\
  (forall i, length (concat ls) <= i -> b_elem (sb_total (multi_basis subs)) i = Panic) /\
  (forall k l, nth_error ls k = Some l -> exists sub, sb_dim (multi_basis subs) k = Ok sub /\ enumerates sub l) /\
  (forall k, length ls <= k -> sb_dim (multi_basis subs) k = Panic).
Proof.
  intros A subs ls H.
  assert (Hm : (forall i x, nth_error (concat ls) i = Some x -> multi_element subs i = Ok x) /\
               (forall i, length (concat ls) <= i -> multi_element subs i = Panic)).
  { induction H as [|b l subs ls [Hsz Hel] H [IH1 IH2]]; [split; [intros [|i] x E; discriminate|reflexivity]|]. split.
    - intros i x E. cbn [multi_element concat] in *. rewrite Hsz. destruct (Nat.leb_spec (length l) i) as [Hle|Hlt].
      + rewrite nth_error_app2 in E by auto. auto.
      + rewrite nth_error_app1 in E by auto. auto.
    - intros i Hi. cbn [multi_element concat] in *. rewrite app_length in Hi. rewrite Hsz. destruct (Nat.leb_spec (length l) i) as [Hle|Hlt]; [|lia].
      apply IH2. lia. }
  destruct Hm as [Hm1 Hm2]. split; [|split; [exact Hm2|split]].
  - split; auto. cbn [multi_basis sb_total b_size]. rewrite <- list_sum_concat. f_equal. clear - H. induction H as [|b l ? ? [Hsz _] ? IH]; simpl; congruence.
  - intros k l Hk. cbn [multi_basis sb_dim]. clear - H Hk. revert k Hk. induction H as [|b l' subs ls Hb H IH]; intros k Hk; [destruct k; discriminate|].
    destruct k as [|k]; simpl in Hk; [injection Hk as <-; exists b; split; auto|]. destruct (IH k Hk) as (sub & E & He). exists sub. split; auto.
  - intros k Hk. cbn [multi_basis sb_dim]. apply index_ge. replace (length subs) with (length ls); auto. clear - H. induction H; simpl; congruence.
Qed.
(** in particular the basis built from the sorted vectors: the codes, dimension after dimension *)
Theorem C39_rips_basis :
  forall (F : ordT) (bases : list (list (F * N))),
  enumerates (sb_total (rips_split bases)) (concat (map (map snd) bases)) /\
  (forall i, length (concat (map (map snd) bases)) <= i -> b_elem (sb_total (rips_split bases)) i = Panic) /\
  (forall k l, nth_error bases k = Some l -> exists sub, sb_dim (rips_split bases) k = Ok sub /\ enumerates sub (map snd l)) /\
  (forall k, length bases <= k -> sb_dim (rips_split bases) k = Panic).
Proof.
  intros F bases. unfold rips_split. destruct (@C39_multi_basis_concatenates rips_index (map single_basis bases) (map (map snd) bases)) as (H1 & H2 & H3 & H4).
  - induction bases as [|l bases IH]; simpl; constructor; auto. split; [simpl; now rewrite map_length|].
    intros i c E. rewrite nth_error_map in E. cbn [single_basis b_elem]. destruct (nth_error l i) as [p|] eqn:Ep; [|discriminate].
    apply index_Ok in Ep. rewrite Ep. cbn [bind]. simpl in E. injection E as <-. reflexivity.
  - split; auto. split; auto. split.
    + intros k l Hk. apply H3. rewrite nth_error_map, Hk. reflexivity.
    + intros k Hk. apply H4. rewrite map_length. auto.
Qed.
Print Assumptions C39_multi_basis_concatenates.
Print Assumptions C39_rips_basis.
Example C39_ex : let b := sb_total (rips_split (F:=nat_ord) [[(0, 5%N); (0, 6%N)]; []; [(1, 7%N)]]) in
  b_size b = 3 /\ b_elem b 1 = Ok 6%N /\ b_elem b 2 = Ok 7%N /\ b_elem b 3 = Panic.
Proof. vm_compute. auto. Qed.

(** ** C40 *)
Theorem C40_boundary_column :
  forall (K : coeffT) (F : ordT) (uw : N) (d : list (list F)) (t : list nat),
  simplex (length d) t -> (code (length d) t < uw)%N ->
  exists l, rips_boundary_column (K:=K) uw d (code (length d) t) = Ok l /\
    (forall k r, In (k, r) l <->
       exists i s, facet t i s /\ s <> [] /\ r = code (length d) s /\ Some k = sign K i) /\
    NoDup (map snd l) /\ (length t = 1 -> l = []) /\ (length t > 1 -> length l = length t).
Proof.
  intros K F uw d t Ht Hu. exists (face_terms (K:=K) d t). split; [now apply boundary_column_ok|]. split; [|split; [|split]].
  - intros k r. split; [apply face_terms_in|]. intros (i & s & Hf & Hne & -> & Hk). unfold face_terms.
    apply facet_rem in Hf. destruct Hf as [Hi ->]. apply in_flat_map. exists i. split; [apply in_seq; lia|].
    destruct (rem i t) eqn:E; [congruence|]. left. rewrite <- parity_sign in Hk. injection Hk as ->. reflexivity.
  - pose proof Ht as (Hne & Hs & Hb). unfold face_terms. rewrite flat_map_concat_map, concat_map, map_map, <- flat_map_concat_map.
    apply NoDup_flat_map; [apply seq_NoDup| |].
    + intros i _. destruct (rem i t); simpl; repeat constructor. simpl; tauto.
    + intros i j r Hi Hj H1 H2. apply in_seq in Hi, Hj. destruct (rem i t) eqn:Ei, (rem j t) eqn:Ej; cbn [map In snd] in H1, H2; try tauto.
      destruct H1 as [<-|[]]. destruct H2 as [E|[]]. rewrite <- Ei, <- Ej in E.
      assert (Hbr : forall i, Forall (fun v => v < length d) (rem i t)).
      { intros k. clear - Hb. revert k. induction Hb as [|v t Hv Hb IH]; intros [|k]; simpl; auto. }
      assert (Eq : rem j t = rem i t).
      { apply (@code_inj (length d)); auto. }
      apply (@facet_unique t i j (rem i t)); [now apply sorted_nodup| |]; apply facet_rem; split; auto; lia.
  - intros H1. destruct t as [|v [|w t]]; try discriminate. reflexivity.
  - intros H1. unfold face_terms. assert (Hr : forall i, i < length t -> rem i t <> []).
    { intros i Hi E. assert (Hf : facet t i []) by (apply facet_rem; auto). apply facet_length in Hf. simpl in Hf. lia. }
    assert (G : forall l, (forall i, In i l -> i < length t) -> length (flat_map (fun i => match rem i t with [] => [] | _ => [(parity i : K, code (length d) (rem i t))] end) l) = length l).
    { induction l as [|i l IH]; intros Hl; auto. cbn [flat_map]. rewrite app_length, IH by (intros; apply Hl; simpl; auto).
      specialize (Hr i (Hl i (or_introl eq_refl))). destruct (rem i t); [congruence|reflexivity]. }
    etransitivity; [apply G; intros i Hi; apply in_seq in Hi; lia|apply seq_length].
Qed.
Theorem C40_boundary_boundary_zero :
  forall (K : coeffT) (F : ordT) (uw : N) (d : list (list F)) (t : list nat),
  simplex (length d) t -> (code (length d) t < uw)%N ->
  let D := rips_boundary_column (K:=K) uw d in
  exists l, product D D (code (length d) t) = Ok l /\ forall r, coef l r = f0.
Proof.
  intros K F uw d t Ht Hu D. unfold product. unfold D at 1. rewrite boundary_column_ok by auto. cbn [bind].
  assert (Hface : forall k r, In (k, r) (face_terms (K:=K) d t) -> exists i s, facet t i s /\ simplex (length d) s /\ r = code (length d) s /\ (r < uw)%N).
  { intros k r Hr. apply face_terms_in in Hr. destruct Hr as (i & s & Hf & Hne & -> & _). exists i, s. split; auto. split; [eapply facet_simplex; eauto|].
    split; auto. apply facet_rem in Hf. destruct Hf as [_ ->]. eapply N.le_lt_trans; [apply code_rem|auto]. }
  destruct (@matrix_col_product_ok K rips_index rips_index D (face_terms (K:=K) d t)) as (l & El & Hin & Hco).
  { intros k r Hr. destruct (Hface k r Hr) as (i & s & Hf & Hs & -> & Hlt). exists (face_terms (K:=K) d s). apply boundary_column_ok; auto. }
  exists l. split; auto. intros r. destruct (fscalar_dec (coef l r)) as [|Hn]; auto. exfalso.
  assert (Hr : exists s, simplex (length d) s /\ r = code (length d) s).
  { apply coef_in in Hn. destruct Hn as [k Hk]. destruct (Hin k r Hk) as (k' & j & lj & k'' & H1 & H2 & H3).
    destruct (Hface _ _ H1) as (i & s & Hf & Hs & -> & Hlt). unfold D in H2. rewrite boundary_column_ok in H2 by auto. injection H2 as <-.
    apply face_terms_in in H3. destruct H3 as (i' & s' & Hf' & Hne & -> & _). exists s'. split; auto. eapply facet_simplex; eauto. }
  destruct Hr as (s & Hs & ->). apply Hn. clear Hn. rewrite Hco.
  pose (L := nodup (list_eq_dec Nat.eq_dec) (map (fun i => rem i t) (seq 0 (length t)))).
  pose (L' := filter (fun x => match x with [] => false | _ => true end) L).
  assert (HL : NoDup L') by (apply NoDup_filter, NoDup_nodup).
  assert (HinL : forall x, In x L' <-> exists i, facet t i x /\ x <> []).
  { intros x. unfold L', L. rewrite filter_In, nodup_In, in_map_iff. split.
    - intros ((i & <- & Hi) & Hx). apply in_seq in Hi. exists i. split; [apply facet_rem; split; auto; lia|]. destruct (rem i t); discriminate.
    - intros (i & Hf & Hne). apply facet_rem in Hf. destruct Hf as [Hi ->]. split; [exists i; split; auto; apply in_seq; lia|]. destruct (rem i t); congruence. }
  assert (HsL : forall x, In x L' -> simplex (length d) x /\ (code (length d) x < uw)%N).
  { intros x Hx. apply HinL in Hx. destruct Hx as (i & Hf & Hne). split; [exact (facet_simplex Ht Hf Hne)|].
    apply facet_rem in Hf. destruct Hf as [_ ->]. eapply N.le_lt_trans; [apply code_rem|auto]. }
  rewrite (@coef_combine K rips_index rips_index (face_terms (K:=K) d t) (mden D) (map (code (length d)) L') (code (length d) s)).
  - unfold lincomb. rewrite vsum_map. etransitivity; [|apply (@inc_inc K L' t s HL)].
    + apply vsum_ext. intros x Hx. destruct (HsL x Hx) as [Hx1 Hx2]. rewrite face_terms_coef by auto. unfold D. rewrite boundary_coef by auto. reflexivity.
    + intros x i Hf Hnz. apply HinL. exists i. split; auto. intros ->. apply Hnz. reflexivity.
  - apply nodup_map_in; auto. intros x y Hx Hy E. apply code_inj in E; auto; apply HsL; auto.
  - intros c b Hb. destruct (Hface c b Hb) as (i & x & Hf & Hx & -> & _). apply in_map_iff. exists x. split; auto. apply HinL. exists i. split; auto. apply Hx.
Qed.
Print Assumptions C40_boundary_column.
Print Assumptions C40_boundary_boundary_zero.
Example C40_ex : rips_boundary_column (K:=Z3_coeff) (2 ^ 64) line4 (code 4 [0; 2; 3]) =
    Ok [(k_one, code 4 [2; 3]); (k_neg k_one, code 4 [0; 3]); (k_one, code 4 [0; 2])] /\
  rips_boundary_column (K:=Z3_coeff) (2 ^ 64) line4 (code 4 [2]) = Ok [] /\
  simplex (length line4) [0; 2; 3].
Proof. split; [vm_compute; reflexivity|]. split; [vm_compute; reflexivity|]. split; [discriminate|]. split; repeat constructor. Qed.

(** ** C41 *)
Theorem C41_coboundary_column :
  forall (K : coeffT) (F : ordT) (uw : N) (d : list (list F)) (s : list nat),
  simplex (length d) s -> (forall t i, simplex (length d) t -> facet t i s -> (code (length d) t < uw)%N) ->
  exists l, rips_coboundary_column (K:=K) uw d (code (length d) s) = Ok l /\
    (forall k r, In (k, r) l <->
       exists i t, simplex (length d) t /\ facet t i s /\ r = code (length d) t /\ Some k = sign K i) /\
    NoDup (map snd l).
Proof.
  intros K F uw d s Hs Hfit. exists (coface_terms (K:=K) d s). split; [now apply coboundary_column_ok|]. split; [|now apply coface_terms_nodup].
  intros k r. split; [now apply coface_terms_in|]. intros (i & t & Ht & Hf & -> & Hk).
  destruct (facet_ins Ht Hf) as (v & Hv & Hn & -> & ->). unfold coface_terms. apply in_map_iff. exists v.
  rewrite <- parity_sign in Hk. injection Hk as ->. split; auto. apply filter_In. split; [apply in_seq; lia|now apply outside_iff].
Qed.
Theorem C41_coboundary_is_transpose :
  forall (K : coeffT) (F : ordT) (uw : N) (d : list (list F)) (s t : list nat),
  simplex (length d) s -> simplex (length d) t -> (code (length d) t < uw)%N ->
  (forall t i, simplex (length d) t -> facet t i s -> (code (length d) t < uw)%N) ->
  exists lt ls,
    rips_boundary_column (K:=K) uw d (code (length d) t) = Ok lt /\
    rips_coboundary_column (K:=K) uw d (code (length d) s) = Ok ls /\
    coef ls (code (length d) t : rips_index) = coef lt (code (length d) s : rips_index).
Proof.
  intros K F uw d s t Hs Ht Hu Hfit. exists (face_terms (K:=K) d t), (coface_terms (K:=K) d s).
  split; [now apply boundary_column_ok|]. split; [now apply coboundary_column_ok|]. rewrite face_terms_coef, coface_terms_coef by auto. reflexivity.
Qed.
Theorem C41_coboundary_coboundary_zero :
  forall (K : coeffT) (F : ordT) (uw : N) (d : list (list F)) (s : list nat),
  simplex (length d) s -> codes_fit uw (length d) (length s + 2) ->
  let D := rips_coboundary_column (K:=K) uw d in
  exists l, product D D (code (length d) s) = Ok l /\ forall r, coef l r = f0.
Proof.
  intros K F uw d s Hs Hfit D.
  assert (Hc1 : cofaces_fit uw d s).
  { intros t i Ht Hf. apply Hfit; auto. rewrite (facet_length Hf). lia. }
  assert (Hc2 : forall t i, simplex (length d) t -> facet t i s -> cofaces_fit uw d t).
  { intros t i Ht Hf u j Hu Hg. apply Hfit; auto. rewrite (facet_length Hg), (facet_length Hf). lia. }
  unfold product. unfold D at 1. rewrite coboundary_column_ok by auto. cbn [bind].
  destruct (@matrix_col_product_ok K rips_index rips_index D (coface_terms (K:=K) d s)) as (l & El & Hin & Hco).
  { intros k r Hr. apply coface_terms_in in Hr; auto. destruct Hr as (i & t & Ht & Hf & -> & _). exists (coface_terms (K:=K) d t). apply coboundary_column_ok; eauto. }
  exists l. split; auto. intros r. destruct (fscalar_dec (coef l r)) as [|Hn]; auto. exfalso.
  assert (Hr : exists u, simplex (length d) u /\ r = code (length d) u).
  { apply coef_in in Hn. destruct Hn as [k Hk]. destruct (Hin k r Hk) as (k' & j & lj & k'' & H1 & H2 & H3).
    apply coface_terms_in in H1; auto. destruct H1 as (i & t & Ht & Hf & -> & _).
    unfold D in H2. rewrite coboundary_column_ok in H2 by eauto. injection H2 as <-.
    apply coface_terms_in in H3; auto. destruct H3 as (i' & u & Hu & _ & -> & _). eauto. }
  destruct Hr as (u & Hu & ->). apply Hn. clear Hn. rewrite Hco.
  pose proof Hs as (Hne & Hso & Hb).
  pose (L := map (fun v => ins v s) (filter (outside s) (seq 0 (length d)))).
  assert (HinL : forall t, In t L <-> exists i, simplex (length d) t /\ facet t i s).
  { intros t. unfold L. rewrite in_map_iff. split.
    - intros (v & <- & Hv). apply filter_In in Hv. destruct Hv as [Hv Ho]. apply in_seq in Hv. apply outside_iff in Ho.
      exists (pos v s). split; [apply ins_simplex; auto; lia|apply ins_facet; auto].
    - intros (i & Ht & Hf). destruct (facet_ins Ht Hf) as (v & Hv & Hn & -> & ->). exists v. split; auto. apply filter_In. split; [apply in_seq; lia|now apply outside_iff]. }
  assert (HL : NoDup L).
  { apply nodup_map_in; [apply NoDup_filter, seq_NoDup|]. intros v w Hv Hw E. apply filter_In in Hv, Hw. destruct Hv as [_ Hv]. destruct Hw as [_ Hw].
    apply outside_iff in Hv, Hw. eapply ins_inj; eauto. }
  rewrite (@coef_combine K rips_index rips_index (coface_terms (K:=K) d s) (mden D) (map (code (length d)) L) (code (length d) u)).
  - unfold lincomb. rewrite vsum_map. etransitivity; [|apply (@inc_inc K L u s HL)].
    + apply vsum_ext. intros t Ht. apply HinL in Ht. destruct Ht as (i & Ht & Hf). rewrite coface_terms_coef by auto. unfold D.
      rewrite coboundary_coef by eauto. apply (Rmul_comm (F_ring K)).
    + intros t i Hf Hnz. apply inc_nonzero in Hnz. destruct Hnz as (j & Hj). apply HinL. exists j. split; auto.
      eapply facet_simplex; [exact Hu|exact Hf|]. intros ->. apply facet_length in Hj. discriminate.
  - apply nodup_map_in; auto. intros x y Hx Hy E. apply HinL in Hx, Hy. destruct Hx as (i & Hx & _). destruct Hy as (j & Hy & _).
    apply code_inj in E; auto; [apply Hx|apply Hy].
  - intros c b Hcb. apply coface_terms_in in Hcb; auto. destruct Hcb as (i & t & Ht & Hf & -> & _). apply in_map_iff. exists t. split; auto. apply HinL. eauto.
Qed.
Print Assumptions C41_coboundary_column.
Print Assumptions C41_coboundary_is_transpose.
Print Assumptions C41_coboundary_coboundary_zero.
Example C41_ex : rips_coboundary_column (K:=Z3_coeff) (2 ^ 64) line4 (code 4 [1; 3]) =
    Ok [(k_one, code 4 [0; 1; 3]); (k_neg k_one, code 4 [1; 2; 3])] /\
  simplex (length line4) [1; 3] /\ codes_fit (2 ^ 64) (length line4) (length [1; 3] + 2).
Proof.
  split; [vm_compute; reflexivity|]. split; [|apply line4_fit; simpl; lia]. split; [discriminate|]. split; repeat constructor.
Qed.

(** ** C42 *)
Lemma filtration_value_ok {F : ordT} (z : F) (d : list (list F)) s : wide d -> simplex (length d) s ->
  exists f, rips_filtration_value d (code (length d) s) = Ok f /\ diameter z d s f.
Proof.
  intros Hsq (Hne & _ & Hb). unfold rips_filtration_value. rewrite to_vec_code by auto. cbn [bind]. now apply max_pairwise_ok.
Qed.
Theorem C42_filtration_value_is_diameter :
  forall (F : ordT) (z : F) (d : list (list F)) (s : list nat),
  wide d -> simplex (length d) s ->
  exists f, rips_filtration_value d (code (length d) s) = Ok f /\ diameter z d s f.
Proof. intros. now apply filtration_value_ok. Qed.
Lemma code_facet_lt n t i s : facet t i s -> 0 < n -> (code n s < code n t)%N.
Proof.
  intros (l1 & v & l2 & -> & -> & _) Hn. induction l1 as [|w l1 IH]; cbn [app code]; [nia|]. nia.
Qed.
(** every row of a boundary column is strictly earlier than the column in the order (value, index) *)
Theorem C42_boundary_rows_earlier :
  forall (K : coeffT) (F : ordT) (uw : N) (z : F) (d : list (list F)) (t : list nat) (l : list (K * rips_index)) (k : K) (r : rips_index),
  wide d -> simplex (length d) t -> (code (length d) t < uw)%N ->
  rips_boundary_column uw d (code (length d) t) = Ok l -> In (k, r) l ->
  exists fr ft, rips_filtration_value d r = Ok fr /\ rips_filtration_value d (code (length d) t) = Ok ft /\
    ole fr ft /\ @olt (pair_ord F rips_index) (fr, r) (ft, code (length d) t).
Proof.
  intros K F uw z d t l k r Hsq Ht Hu E Hin. rewrite boundary_column_ok in E by auto. injection E as <-.
  apply face_terms_in in Hin. destruct Hin as (i & s & Hf & Hne & -> & _).
  pose proof (facet_simplex Ht Hf Hne) as Hs.
  destruct (@filtration_value_ok F z d s Hsq Hs) as (fs & E1 & D1). destruct (@filtration_value_ok F z d t Hsq Ht) as (ft & E2 & D2).
  exists fs, ft. split; auto. split; auto. assert (Hle : ole fs ft) by (eapply diameter_mono; [|exact D1|exact D2]; eapply facet_incl; eauto).
  split; auto. assert (Hn : 0 < length d).
  { destruct Ht as (Hnt & _ & Hb). destruct t as [|v t]; [congruence|]. inversion Hb; lia. }
  pose proof (code_facet_lt Hf Hn) as Hc. apply ole_lt_eq in Hle. unfold olt. simpl. unfold lex_cmp. simpl.
  destruct Hle as [Hlt| ->]; [now rewrite Hlt|]. rewrite cmp_refl. exact Hc.
Qed.
Theorem C42_faces_no_later :
  forall (F : ordT) (z : F) (d : list (list F)) (s t : list nat),
  wide d -> simplex (length d) s -> simplex (length d) t -> incl s t ->
  exists fs ft, rips_filtration_value d (code (length d) s) = Ok fs /\ rips_filtration_value d (code (length d) t) = Ok ft /\ ole fs ft.
Proof.
  intros F z d s t Hsq Hs Ht Hi.
  destruct (@filtration_value_ok F z d s Hsq Hs) as (fs & E1 & D1). destruct (@filtration_value_ok F z d t Hsq Ht) as (ft & E2 & D2).
  exists fs, ft. split; auto. split; auto. eapply diameter_mono; eauto.
Qed.
Print Assumptions C42_filtration_value_is_diameter.
Print Assumptions C42_boundary_rows_earlier.
Print Assumptions C42_faces_no_later.
Example C42_ex : rips_filtration_value line4 (code 4 [0; 2]) = Ok 3 /\ rips_filtration_value line4 (code 4 [0; 1; 2]) = Ok 3 /\
  rips_filtration_value line4 (code 4 [0; 2; 3]) = Ok 7 /\ wide line4.
Proof. split; [vm_compute; reflexivity|]. split; [vm_compute; reflexivity|]. split; [vm_compute; reflexivity|]. apply line4_rips. Qed.

(** ** C43 *)
(** the matrices handed out by the builders: [column_with_filtration] is [column] with [filtration_value] *)
Theorem C43_built_matrices_coherent :
  forall (K : coeffT) (F : ordT) (uw : N) (z : F) (d : list (list F)) (b : basis rips_index) (s : list nat),
  wide d -> simplex (length d) s -> codes_fit uw (length d) (length s + 1) ->
  lists_filtration (fst (matrix_with_basis (rips_coboundary (K:=K) uw d) b)) (code (length d) s : rips_index) /\
  lists_filtration (by_ref (rips_coboundary (K:=K) uw d)) (code (length d) s : rips_index) /\
  lists_filtration (rips_boundary (K:=K) uw d) (code (length d) s : rips_index).
Proof.
  intros K F uw z d b s Hsq Hs Hfit.
  assert (Hc : cofaces_fit uw d s).
  { intros t i Ht Hf. apply Hfit; auto. rewrite (facet_length Hf). lia. }
  assert (Hcode : (code (length d) s < uw)%N) by (apply Hfit; auto; lia).
  assert (G : forall (col : oracle K rips_index rips_index) l, col (code (length d) s : rips_index) = Ok l ->
     (forall k r, In (k, r) l -> exists t, simplex (length d) t /\ r = code (length d) t) ->
     lists_filtration (fm_default (K:=K) col (rips_filtration_value d)) (code (length d) s : rips_index)).
  { intros col l E Hl. 
    pose (phi := fun r : rips_index => match rips_filtration_value d r with Ok f => f | _ => z end).
    assert (Hphi : forall k r, In (k, r) l -> rips_filtration_value d r = Ok (phi r)).
    { intros k r Hr. destruct (Hl k r Hr) as (t & Ht & ->). unfold phi. destruct (@filtration_value_ok F z d t Hsq Ht) as (f & -> & _). reflexivity. }
    exists l, (map (fun p => Entry (phi (snd p)) (snd p) (fst p)) l). split; auto. split.
    - cbn [fm_default m_colf]. unfold default_colf. rewrite E. cbn [bind]. apply mapM_pure. intros [k r] Hr. simpl. rewrite (Hphi k r Hr). reflexivity.
    - clear E Hl. induction l as [|[k r] l IH]; simpl; constructor; [|apply IH; intros; eapply Hphi; simpl; eauto].
      split; auto. split; auto. apply (Hphi k r). simpl; auto. }
  split; [|split].
  - apply (G _ (coface_terms (K:=K) d s)); [now apply coboundary_column_ok|]. intros k r Hr. apply coface_terms_in in Hr; auto. destruct Hr as (i & t & Ht & _ & -> & _). eauto.
  - apply (G _ (coface_terms (K:=K) d s)); [now apply coboundary_column_ok|]. intros k r Hr. apply coface_terms_in in Hr; auto. destruct Hr as (i & t & Ht & _ & -> & _). eauto.
  - apply (G _ (face_terms (K:=K) d s)); [now apply boundary_column_ok|]. intros k r Hr. apply face_terms_in in Hr. destruct Hr as (i & t & Hf & Hne & -> & _).
    exists t. split; auto. eapply facet_simplex; eauto.
Qed.
(** [RipsCoboundary]'s own override, reachable through the public field [matrix]: it panics unless the last point
    is a vertex of the simplex ... *)
Theorem C43_override_panics :
  forall (K : coeffT) (F : ordT) (uw : N) (z : F) (d : list (list F)) (s : list nat),
  square d -> simplex (length d) s -> codes_fit uw (length d) (length s + 1) ->
  ~ In (length d - 1) s -> m_colf (rips_coboundary (K:=K) uw d) (code (length d) s) = Panic.
Proof.
  intros K F uw z d s Hsq0 Hs Hfit Hn. assert (Hsq : wide d) by (intros row Hr; rewrite (Hsq0 row Hr); auto). pose proof Hs as (Hne & Hso & Hb).
  assert (Hc : cofaces_fit uw d s).
  { intros t i Ht Hf. apply Hfit; auto. rewrite (facet_length Hf). lia. }
  assert (Hpos : 0 < length d) by (destruct s as [|v s]; [congruence|]; inversion Hb; lia).
  cbn [rips_coboundary m_colf]. unfold rips_coboundary_colf. rewrite to_vec_code by auto. cbn [bind].
  destruct (@max_pairwise_ok F z d Hsq s Hne Hb) as (f & -> & _). cbn [bind].
  rewrite coboundary_iter_ok; auto; [|apply cofaces_fit_ins; auto]. cbn [bind].
  match goal with |- mapM ?g _ = _ => set (h := g) end.
  assert (E : filter (outside s) (seq 0 (length d)) = filter (outside s) (seq 0 (length d - 1)) ++ [length d - 1]).
  { replace (length d) with (length d - 1 + 1) at 1 by lia. rewrite seq_app, filter_app. simpl. apply outside_iff in Hn. now rewrite Hn. }
  rewrite E, map_app. cbn [map].
  assert (Hlast : forall x, h (cob_item (K:=K) (length d) s (length d - 1)) = Ok x -> False).
  { intros x. unfold h, cob_item. cbn beta iota. destruct s as [|v s0]; [congruence|]. cbn [mapM].
    assert (Ed : dist_at d v (length d - 1 + 1) = Panic).
    { unfold dist_at. inversion Hb; subst. destruct (@index_lt _ d v ltac:(auto)) as (row & -> & Er). cbn [bind]. apply index_ge.
      rewrite (Hsq0 row) by (eapply nth_error_In; eauto). lia. }
    rewrite Ed. discriminate. }
  assert (Hall : forall v, In v (filter (outside s) (seq 0 (length d - 1))) -> exists e, h (cob_item (length d) s v) = Ok e).
  { intros v Hv. apply filter_In in Hv. destruct Hv as [Hv _]. apply in_seq in Hv. unfold h, cob_item. cbn beta iota.
    rewrite (@mapM_pure _ _ _ (fun w => dist z d w (v + 1))).
    - cbn [bind]. destruct (@iter_max_spec F (map (fun w => dist z d w (v + 1)) s)) as (m & -> & _); [intros E0; apply map_eq_nil in E0; auto|]. cbn. eauto.
    - intros w Hw. apply dist_at_ok; auto; [rewrite Forall_forall in Hb; auto|lia]. }
  assert (Hp : h (cob_item (length d) s (length d - 1)) = Panic).
  { revert Hlast. unfold h, cob_item. cbn beta iota. destruct s as [|v s0]; [congruence|]. cbn [mapM].
    assert (Ed : dist_at d v (length d - 1 + 1) = Panic).
    { unfold dist_at. inversion Hb; subst. destruct (@index_lt _ d v ltac:(auto)) as (row & -> & Er). cbn [bind]. apply index_ge.
      rewrite (Hsq0 row) by (eapply nth_error_In; eauto). lia. }
    rewrite Ed. reflexivity. }
  clear E Hlast. revert Hall. generalize (filter (outside s) (seq 0 (length d - 1))). induction l as [|v l IH]; intros Hall; cbn [map app mapM].
  - rewrite Hp. reflexivity.
  - destruct (Hall v (or_introl eq_refl)) as (e & ->). cbn [bind]. rewrite IH by (intros; apply Hall; simpl; auto). reflexivity.
Qed.
(** ... and otherwise gives the coface by [v] the value computed with the point [v + 1] in place of [v]. *)
Theorem C43_override_exact :
  forall (K : coeffT) (F : ordT) (uw : N) (z : F) (d : list (list F)) (s : list nat),
  wide d -> simplex (length d) s -> codes_fit uw (length d) (length s + 1) -> In (length d - 1) s ->
  exists l es f, m_col (rips_coboundary (K:=K) uw d) (code (length d) s) = Ok l /\
    m_colf (rips_coboundary (K:=K) uw d) (code (length d) s) = Ok es /\
    map e_term es = l /\ diameter z d s f /\
    forall e, In e es -> exists i v t, facet t i s /\ simplex (length d) t /\ In v t /\ ~ In v s /\ e_row e = code (length d) t /\
      ole f (e_fil e) /\ (forall w, In w s -> ole (dist z d w (v + 1)) (e_fil e)) /\
      (e_fil e = f \/ exists w, In w s /\ e_fil e = dist z d w (v + 1)).
Proof.
  intros K F uw z d s Hsq Hs Hfit Hn. pose proof Hs as (Hne & Hso & Hb).
  assert (Hc : cofaces_fit uw d s).
  { intros t i Ht Hf. apply Hfit; auto. rewrite (facet_length Hf). lia. }
  assert (Hpos : 0 < length d) by (destruct s as [|v s]; [congruence|]; inversion Hb; lia).
  destruct (@max_pairwise_ok F z d Hsq s Hne Hb) as (f & Ef & Df).
  exists (coface_terms (K:=K) d s).
  pose (vs := filter (outside s) (seq 0 (length d))).
  exists (map (fun v => Entry (omax f (maxl z (map (fun w => dist z d w (v + 1)) s))) (code (length d) (ins v s)) (parity (pos v s))) vs), f.
  assert (Hvs : forall v, In v vs -> v < length d - 1 /\ ~ In v s).
  { intros v Hv. apply filter_In in Hv. destruct Hv as [Hv Ho]. apply in_seq in Hv. apply outside_iff in Ho. split; auto.
    assert (v <> length d - 1) by congruence. lia. }
  split; [now apply coboundary_column_ok|]. split; [|split; [|split; [auto|]]].
  - cbn [rips_coboundary m_colf]. unfold rips_coboundary_colf. rewrite to_vec_code by auto. cbn [bind]. rewrite Ef. cbn [bind].
    rewrite coboundary_iter_ok; auto; [|apply cofaces_fit_ins; auto]. cbn [bind]. fold vs.
    rewrite (@mapM_pure _ _ _ (fun it : K * rips_index * nat => Entry (omax f (maxl z (map (fun w => dist z d w (snd it)) s))) (snd (fst it)) (fst (fst it)))).
    + rewrite map_map. reflexivity.
    + intros it Hit. apply in_map_iff in Hit. destruct Hit as (v & <- & Hv). apply Hvs in Hv. unfold cob_item. cbn beta iota. cbn [fst snd].
      rewrite (@mapM_pure _ _ _ (fun w => dist z d w (v + 1))).
      * cbn [bind]. destruct (@iter_max_spec F (map (fun w => dist z d w (v + 1)) s)) as (m & Em & _); [intros E0; apply map_eq_nil in E0; auto|].
        unfold maxl. rewrite Em. reflexivity.
      * intros w Hw. apply dist_at_ok; auto; [rewrite Forall_forall in Hb; auto|lia].
  - unfold coface_terms. fold vs. rewrite map_map. reflexivity.
  - intros e He. apply in_map_iff in He. destruct He as (v & <- & Hv). apply Hvs in Hv. destruct Hv as [Hv Hv'].
    exists (pos v s), v, (ins v s). split; [now apply ins_facet|]. split; [apply ins_simplex; auto; lia|].
    split; [unfold ins; apply in_app_iff; simpl; auto|]. split; auto. split; auto. cbn [e_fil].
    destruct (@maxl_spec F z (map (fun w => dist z d w (v + 1)) s)) as [M1 M2]; [intros E0; apply map_eq_nil in E0; auto|].
    split; [apply omax_le_l|]. split.
    + intros w Hw. eapply ole_trans; [|apply omax_le_r]. apply M2. apply in_map_iff. eauto.
    + destruct (omax_case f (maxl z (map (fun w => dist z d w (v + 1)) s))) as [->| ->]; auto. right.
      apply in_map_iff in M1. destruct M1 as (w & E0 & Hw). eauto.
Qed.
(** so the values it lists are not those of [filtration_value]: on four points of a line, the cofaces of the last point *)
Theorem C43_override_disagrees :
  distance_matrix (0 : nat_ord) line4 /\ simplex (length line4) [3] /\
  ~ lists_filtration (rips_coboundary (K:=Z3_coeff) (2 ^ 64) line4) (code 4 [3] : rips_index) /\
  exists es, m_colf (rips_coboundary (K:=Z3_coeff) (2 ^ 64) line4) (code 4 [3]) = Ok es /\
    map (fun e => (e_row e, e_fil e)) es = [(code 4 [0; 3], 6); (code 4 [1; 3], 4); (code 4 [2; 3], 0)] /\
    map (fun e => rips_filtration_value line4 (e_row e)) es = [Ok 7; Ok 6; Ok 4].
Proof.
  split; [apply line4_distance|]. split; [split; [discriminate|split; repeat constructor]|]. split.
  - intros (l & es & E1 & E2 & H). vm_compute in E1. injection E1 as <-. vm_compute in E2. injection E2 as <-.
    inversion H as [|p e ? ? (_ & _ & E) _ ]; subst. vm_compute in E. discriminate.
  - eexists. split; [vm_compute; reflexivity|]. split; vm_compute; reflexivity.
Qed.
Print Assumptions C43_built_matrices_coherent.
Print Assumptions C43_override_panics.
Print Assumptions C43_override_exact.
Print Assumptions C43_override_disagrees.
Example C43_ex : m_colf (rips_coboundary (K:=Z3_coeff) (2 ^ 64) line4) (code 4 [0; 1]) = Panic /\ ~ In (length line4 - 1) [0; 1] /\ In (length line4 - 1) [3].
Proof. split; [vm_compute; reflexivity|]. simpl. split; [lia|auto]. Qed.
