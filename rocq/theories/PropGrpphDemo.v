(** Property theorem C65: the demonstration program of phlite_grpph never fails its assertions. *)
From Verif Require Import Base Fields FieldsFacts Spec LinAlg Columns ColumnsFacts Matrices Reduction Rips GrpphCells Grpph SpecGrpph SpecPath SpecWeighted GrpphFacts GrpphReduce PropGrpph GrpphRun PropGrpphRun ShortestPaths PropPathHomology PropReps WeightedRun PropWeighted PropGrpphExamples.
From Coq Require Import Permutation Lia.
Set Implicit Arguments.

Lemma push_at_perm {A} (x : A) : forall acc k r, push_at acc k x = Ok r -> Permutation (concat r) (concat acc ++ [x]).
Proof.
  induction acc as [|b acc IH]; intros k r H; [discriminate|]. destruct k as [|k]; cbn [push_at] in H.
  - injection H as <-. cbn [concat]. rewrite <- !app_assoc. apply Permutation_app_head. apply Permutation_app_comm.
  - destruct (push_at acc k x) as [acc'| |] eqn:E; cbn [bind] in H; try discriminate. injection H as <-. cbn [concat]. rewrite <- app_assoc. apply Permutation_app_head. eauto.
Qed.
Section Lists.
  Context {F : ordT} (fil : cell_ord -> res F).
  Lemma essential_list : forall ess acc r,
    foldM (fun (acc : list (list F)) (idx : rev_ord cell_ord) => do f_val <- fil (unrev idx); push_at acc (cell_dimension (unrev idx)) f_val) ess acc = Ok r ->
    exists vs, mapM (fun idx : rev_ord cell_ord => fil (unrev idx)) ess = Ok vs /\ Permutation (concat r) (concat acc ++ vs) /\ length vs = length ess.
  Proof.
    induction ess as [|c ess IH]; intros acc r H; cbn [foldM mapM] in *.
    - injection H as <-. exists []. rewrite app_nil_r. auto.
    - destruct (fil (unrev c)) as [v| |]; cbn [bind] in *; try discriminate. destruct (push_at acc _ v) as [acc'| |] eqn:E; cbn [bind] in H; try discriminate.
      destruct (IH _ _ H) as (vs & E2 & P & Hl). rewrite E2. cbn [bind]. exists (v :: vs). split; auto. split; [|cbn [length]; auto].
      rewrite P, (push_at_perm _ _ _ E), <- app_assoc. reflexivity.
  Qed.
  Lemma pairings_list : forall ps acc r,
    foldM (fun (acc : list (list (F * F))) (p : rev_ord cell_ord * rev_ord cell_ord) =>
      do birth_f <- fil (unrev (snd p));
      do death_f <- fil (unrev (fst p));
      if oeqb death_f birth_f then Ok acc
      else push_at acc (cell_dimension (unrev (snd p))) (birth_f, death_f)) ps acc = Ok r ->
    exists vs, flat_mapM (fun p : rev_ord cell_ord * rev_ord cell_ord =>
        do birth_f <- fil (unrev (snd p));
        do death_f <- fil (unrev (fst p));
        Ok (if oeqb death_f birth_f then [] else [(birth_f, death_f)])) ps = Ok vs /\ Permutation (concat r) (concat acc ++ vs).
  Proof.
    unfold flat_mapM. induction ps as [|p ps IH]; intros acc r H; cbn [foldM mapM] in *.
    - injection H as <-. exists []. rewrite app_nil_r. auto.
    - destruct (fil (unrev (snd p))) as [vb| |]; cbn [bind] in *; try discriminate. destruct (fil (unrev (fst p))) as [vd| |]; cbn [bind] in *; try discriminate.
      destruct (oeqb vd vb).
      + cbn [bind] in H. destruct (IH _ _ H) as (vs & E2 & P). destruct (mapM _ ps) as [ll| |]; cbn [bind] in *; try discriminate. injection E2 as <-. eexists. split; [reflexivity|exact P].
      + destruct (push_at acc _ _) as [acc'| |] eqn:E; cbn [bind] in H; try discriminate. destruct (IH _ _ H) as (vs & E2 & P).
        destruct (mapM _ ps) as [ll| |]; cbn [bind] in *; try discriminate. injection E2 as <-. eexists. split; [reflexivity|]. cbn [concat app].
        rewrite P, (push_at_perm _ _ _ E), <- app_assoc. reflexivity.
  Qed.
End Lists.

Lemma demo_pairs n m (f : nat -> nat) : (forall i, i < m -> f i = i) -> forall l, (forall i, In i l -> i < m) -> (n <= m) ->
  filter (fun p : nat * nat => negb (fst p =? snd p)) (map (fun p : nat * nat => (f (fst p), f (snd p))) (flat_map (fun i => map (fun j => (i, j)) (seq 0 n)) l)) =
  flat_map (fun i => map (fun j => (i, j)) (filter (fun j => negb (i =? j)) (seq 0 n))) l.
Proof.
  intros Hf. induction l as [|i l IH]; intros Hl Hnm; auto. cbn [flat_map]. rewrite map_app, filter_app, IH by (auto; intros; apply Hl; now right). f_equal.
  assert (Hi : i < m) by (apply Hl; now left). assert (H : forall js, (forall j, In j js -> j < m) ->
    filter (fun p : nat * nat => negb (fst p =? snd p)) (map (fun p : nat * nat => (f (fst p), f (snd p))) (map (fun j => (i, j)) js)) = map (fun j => (i, j)) (filter (fun j => negb (i =? j)) js)).
  { induction js as [|j js IHj]; intros Hj; auto. cbn [map filter fst snd]. rewrite !Hf by (auto; apply Hj; now left). rewrite IHj by (intros; apply Hj; now right). destruct (i =? j); reflexivity. }
  apply H. intros j Hj. apply in_seq in Hj. lia.
Qed.

(** ** C65.  The program (with any number [n >= 2] of vertices in place of 100) returns; it prints one essential class, born at 0, and
    [n (n - 1) - n + 1] pairs, born at 0 and dead at 1.  All its assertions hold. *)
Theorem C65_demo_assertions_hold :
  forall (HI : heaps) (F : ordT) (add : F -> F -> F) (z one inf : F) (sp : list (nat * nat * F) -> nat -> nat -> option F) (n : nat),
  (N.of_nat n < 65536)%N -> 2 <= n -> olt z one -> olt one inf -> nonneg_add add z -> shortest_path_library add z n sp ->
  exists M : nat, forall fuel, M < fuel ->
  grpph_demo HI fuel z inf one sp n = Ok ([z], repeat (z, one) (n * (n - 1) - n + 1)).
Proof.
  intros HI F add z one inf sp n Hn Hn2 Hone Hinf Hadd Hlib.
  destruct (@C63_complete_digraph HI F add z one inf sp n Hn Hone Hinf Hadd Hlib ltac:(lia)) as (M & H). exists M. intros fuel Hfuel. specialize (H fuel Hfuel).
  assert (Hseq : forall i, In i (seq 0 n) -> i < n) by (intros i Hi; apply in_seq in Hi; lia).
  assert (Eg : map (fun p : nat * nat => (fst p, snd p, one)) (filter (fun p => negb (fst p =? snd p)) (flat_map (fun i => map (fun j => (i, j)) (seq 0 n)) (seq 0 n))) = complete_digraph one n).
  { assert (Hid : forall l : list (nat * nat), map (fun p : nat * nat => ((fun x => x) (fst p), (fun x => x) (snd p))) l = l) by (induction l as [|[a b] l IHl]; auto; cbn [map fst snd] in *; now rewrite IHl).
    pose proof (@demo_pairs n n (fun x => x) ltac:(auto) (seq 0 n) Hseq (le_n n)) as E. rewrite Hid in E. rewrite E. unfold complete_digraph.
    induction (seq 0 n) as [|i l IH] at 2 4; auto. cbn [flat_map]. rewrite map_app, map_map. cbn [fst snd]. now rewrite IH. }
  assert (Es : fold_left (fun s (p : nat * nat) => @set_insert edge_ord p s)
        (filter (fun p => negb (fst p =? snd p)) (map (fun p : nat * nat => (as_u16 (fst p), as_u16 (snd p))) (flat_map (fun i => map (fun j => (i, j)) (seq 0 n)) (seq 0 n)))) [] = build_edge_set (complete_digraph one n)).
  { rewrite (@demo_pairs n n as_u16) by (auto; intros i Hi; apply as_u16_small; lia). unfold build_edge_set, complete_digraph. generalize (@nil edge_ord). revert Hseq. generalize (seq 0 n) at 1 3 5.
    intros l Hl. assert (Hj : forall i j, In i l -> In j (filter (fun j => negb (i =? j)) (seq 0 n)) -> as_u16 i = i /\ as_u16 j = j).
    { intros i j Hi Hj. apply filter_In in Hj. destruct Hj as [Hj _]. apply in_seq in Hj. apply Hl in Hi. split; apply as_u16_small; lia. }
    clear Hl. induction l as [|i l IH]; intros acc; auto. cbn [flat_map]. rewrite !fold_left_app, IH by (intros; apply Hj; auto; now right). f_equal.
    assert (Hj' : forall j, In j (filter (fun j => negb (i =? j)) (seq 0 n)) -> as_u16 i = i /\ as_u16 j = j) by (intros j Hin; apply Hj; auto; now left).
    revert acc Hj'. generalize (filter (fun j => negb (i =? j)) (seq 0 n)). clear. induction l as [|j l IH]; intros acc Hj; auto. cbn [map fold_left fst snd].
    destruct (Hj j (or_introl eq_refl)) as [-> ->]. apply IH. intros; apply Hj; now right. }
  assert (Ef : finite_edges inf (complete_digraph one n) = complete_digraph one n).
  { unfold finite_edges. apply filter_full. intros [[u v] w] Hi. apply complete_in in Hi. destruct Hi as (_ & _ & _ & ->). cbn [snd]. destruct (oltb_spec one inf); [reflexivity|contradiction]. }
  unfold grpph_py, grpph in H. rewrite Ef in H. unfold grpph_demo. rewrite Eg, Es.
  destruct (grpph_reduce _ _ _ _ _ _ _) as [[d [rc dg]]| |]; cbn [bind] in *; try discriminate.
  destruct (translate_essential (m_fil d) (essential dg)) as [ess| |] eqn:E1; cbn [bind] in H; try discriminate.
  destruct (translate_pairings (m_fil d) (pairings dg)) as [prs| |] eqn:E2; cbn [bind] in H; try discriminate. injection H as -> ->.
  unfold translate_essential in E1. unfold translate_pairings in E2.
  destruct (essential_list _ _ _ E1) as (vs & E3 & P1 & Hl). destruct (pairings_list _ _ _ E2) as (ws & E4 & P2). rewrite E3. cbn [bind]. rewrite E4. cbn [bind].
  cbn [concat app] in P1, P2. rewrite app_nil_r in P2. apply Permutation_length_1_inv in P1. subst vs.
  assert (Ew : ws = repeat (z, one) (length ws)).
  { apply repeat_all. intros y Hy. eapply repeat_spec. eapply Permutation_in; [symmetry; exact P2|exact Hy]. }
  apply Permutation_length in P2. rewrite repeat_length in P2.
  assert (Hnn : n <= n * (n - 1)) by nia.
  rewrite Ew. destruct (Nat.ltb_spec n 1); [lia|]. destruct (Nat.ltb_spec (n * (n - 1)) n); [lia|]. cbn [orb]. rewrite repeat_length, <- P2.
  replace (n * (n - 1) + 1 - n) with (n * (n - 1) - n + 1) by lia. rewrite Nat.eqb_refl. cbn [negb]. rewrite <- Hl. reflexivity.
Qed.
Print Assumptions C65_demo_assertions_hold.

Example C65_ex : grpph_demo (F:=nat_ord) list_heaps 80 0 1000 1 (fun edges => bellman (F:=nat_ord) Nat.add 0 edges 4) 4 = Ok ([0], repeat (0, 1) 9).
Proof. vm_compute. reflexivity. Qed.
