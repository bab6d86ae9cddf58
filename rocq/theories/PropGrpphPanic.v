(** Property theorems C80: edges that mention a vertex that does not exist. *)
From Verif Require Import Base Fields FieldsFacts Spec LinAlg Columns ColumnsFacts Matrices SpecMat MatricesFacts Reduction Graded StandardResults Duality Rips RipsBasis PropMatrices PropClearing RipsComplex GrpphCells Grpph SpecGrpph GrpphFacts GrpphColumns GrpphComplex GrpphReduce GrpphList GrpphRun Involution GrpphInvolution PropGrpph PropGrpphRun GrpphPanic.
From Coq Require Import Ring_theory Sorted Permutation Lia.
Set Implicit Arguments.

(** The vertex that a [u32] vertex number denotes once cast to [u16]. *)
Definition cast16 (x : nat) : N := (N.of_nat x mod 65536)%N.
(** Every edge joins two of the vertices [0, ..., n - 1] once its ends are cast to [u16]. *)
Definition known_vertices {W} (n : nat) (edges : list (nat * nat * W)) : Prop :=
  forall s t w, In (s, t, w) edges -> (cast16 s < N.of_nat n)%N /\ (cast16 t < N.of_nat n)%N.

Lemma as_u16_cast x n : as_u16 x < n <-> (cast16 x < N.of_nat n)%N.
Proof. unfold as_u16, cast16. split; intros H; lia. Qed.
Lemma index_never_nofuel {A} (l : list A) i : halts (index l i).
Proof. unfold index. destruct (nth_error l i); discriminate. Qed.
Lemma index_out {A} (l : list A) i : length l <= i -> index l i = Panic.
Proof. intros H. unfold index. apply nth_error_None in H. now rewrite H. Qed.
Lemma table_halts {F : ordT} (n : nat) (dijkstra : nat -> nat -> option F) s t : halts (vec_filtration (build_filtration n dijkstra) s t).
Proof. unfold vec_filtration. apply halts_bind; [apply index_never_nofuel|]. intros. apply index_never_nofuel. Qed.
Lemma table_out {F : ordT} (n : nat) (dijkstra : nat -> nat -> option F) s t : ~ (s < n /\ t < n) ->
  vec_filtration (build_filtration n dijkstra) s t = Panic.
Proof.
  intros H. unfold vec_filtration, build_filtration. destruct (Nat.lt_ge_cases s n) as [Hs|Hs].
  - rewrite (map_index _ _ _ (nth_error_seq0 Hs)). cbn [bind]. apply index_out. rewrite map_length, seq_length. lia.
  - rewrite index_out by (rewrite map_length, seq_length; lia). reflexivity.
Qed.
Definition trunc_edges {F : ordT} (edges : list (nat * nat * F)) : list (nat * nat * F) :=
  map (fun e => (as_u16 (fst (fst e)), as_u16 (snd (fst e)), snd e)) edges.
Lemma as_u16_idem x : as_u16 (as_u16 x) = as_u16 x.
Proof. apply as_u16_small. unfold as_u16. rewrite N2Nat.id. now apply N.mod_lt. Qed.
Lemma edge_set_trunc {F : ordT} (edges : list (nat * nat * F)) : build_edge_set (trunc_edges edges) = build_edge_set edges.
Proof.
  unfold build_edge_set, trunc_edges. generalize (@nil edge_ord). induction edges as [|e edges IH]; intros acc; cbn [map fold_left]; auto.
  cbn [fst snd]. rewrite !as_u16_idem. apply IH.
Qed.

Section Two.
  Variable HI : heaps.
  Context {F : ordT} (time : nat -> nat -> option F) (n : nat) (z inf : F) (edges : list (nat * nat * F)) (dijkstra : nat -> nat -> option F).
  Hypothesis Hn : (N.of_nat n < 65536)%N.
  Hypothesis HG : filtered_digraph time n z inf.
  Hypothesis Hd : forall s t, s < n -> t < n -> s <> t -> dijkstra s t = time s t.
  Let fil := vec_filtration (build_filtration n dijkstra).
  Let E := build_edge_set edges.

  Lemma bad_reduce fuel : (exists s t, In (s, t) E /\ ~ (s < n /\ t < n)) ->
    length (listing time n z inf (Eg n E)) < fuel -> grpph_reduce HI fuel z inf (K:=Z2_coeff) fil E (as_u16 n) = Panic.
  Proof.
    intros Hx Hf. rewrite (as_u16_small n Hn). pose proof (@run_fil F time n z inf dijkstra HG Hd) as Hfil.
    destruct (build_bridge_ok HG fil Hfil) as (bm & Eb & Hbm).
    destruct (listing_ok HG (@Eg_lt n E) (@Eg_nodup n E (edge_set_nodup edges))) as (Hl & Hin & Hphi & _).
    unfold grpph_reduce, grpph_coboundary_build. rewrite Eb. cbn [bind]. rewrite (@basis_built F time n z fil Hfil E). cbn [bind].
    set (b := sb_total (cell_split (gbases time n z E))).
    pose proof (@unknown_vertex_build HI Z2_coeff F time n z inf fil E HG Hfil (table_halts n dijkstra) (@table_out F n dijkstra) (edge_set_nodup edges) bm Hbm b _ Hphi _ Hin fuel Hx Hf) as Er.
    unfold GD, gsplit in Er. rewrite Er. reflexivity.
  Qed.
  Lemma bad_exists : ~ known_vertices n edges -> exists s t, In (s, t) E /\ ~ (s < n /\ t < n).
  Proof.
    intros H. destruct (existsb (fun e : nat * nat => negb (inr n e)) E) eqn:Ex.
    - apply existsb_exists in Ex. destruct Ex as ([s t] & He & Hi). exists s, t. split; auto. intros Hst. apply (proj2 (inr_iff n (s, t))) in Hst. rewrite Hst in Hi. discriminate.
    - exfalso. apply H. intros s t w He. 
      assert (Hin : In (as_u16 s, as_u16 t) E) by (apply edge_set_in; exists (s, t, w); auto).
      destruct (inr n (as_u16 s, as_u16 t)) eqn:Ei.
      + apply inr_iff in Ei. cbn [fst snd] in Ei. rewrite <- !as_u16_cast. exact Ei.
      + assert (Ht : existsb (fun e : nat * nat => negb (inr n e)) E = true) by (apply existsb_exists; exists (as_u16 s, as_u16 t); rewrite Ei; auto). congruence.
  Qed.
End Two.

(** ** C80 *)

(** With more fuel than a bound that depends on the input only, the two functions exported to Python return exactly
    when every edge joins two existing vertices, and panic in every other case: they never return the barcode of a
    digraph with an unknown vertex, and they never hang. *)
Theorem C80_unknown_vertex_panics :
  forall (HI : heaps) (F : ordT) (time : nat -> nat -> option F) (n : nat) (z inf : F) (edges : list (nat * nat * F)) (dijkstra : nat -> nat -> option F),
  (N.of_nat n < 65536)%N -> filtered_digraph time n z inf ->
  (forall s t, s < n -> t < n -> s <> t -> dijkstra s t = time s t) ->
  ~ known_vertices n edges ->
  exists fuel0, forall fuel, fuel0 <= fuel ->
    grpph HI fuel z inf n edges dijkstra = Panic /\ grpph_with_involution HI fuel z inf n edges dijkstra = Panic.
Proof.
  intros HI F time n z inf edges dijkstra Hn HG Hd Hbad. exists (S (length (listing time n z inf (Eg n (build_edge_set edges))))). intros fuel Hf.
  pose proof (@bad_reduce HI F time n z inf edges dijkstra Hn HG Hd fuel (bad_exists Hbad) Hf) as Er.
  unfold grpph, grpph_with_involution. rewrite Er. split; reflexivity.
Qed.
Print Assumptions C80_unknown_vertex_panics.

Theorem C80_known_vertices_return :
  forall (HI : heaps) (F : ordT) (time : nat -> nat -> option F) (n : nat) (z inf : F) (edges : list (nat * nat * F)) (dijkstra : nat -> nat -> option F),
  (N.of_nat n < 65536)%N -> filtered_digraph time n z inf ->
  (forall s t, s < n -> t < n -> s <> t -> dijkstra s t = time s t) ->
  known_vertices n edges ->
  exists fuel0, forall fuel, fuel0 <= fuel ->
    exists ess prs reps, grpph HI fuel z inf n edges dijkstra = Ok (ess, prs) /\
      grpph_with_involution HI fuel z inf n edges dijkstra = Ok (ess, prs, reps).
Proof.
  intros HI F time n z inf edges dijkstra Hn HG Hd Hk. set (E := build_edge_set edges).
  assert (He : forall s t w, In (s, t, w) (trunc_edges edges) -> s < n /\ t < n).
  { intros s t w H. apply in_map_iff in H. destruct H as ([[i j] w'] & [= <- <- _] & H). apply Hk in H. now rewrite !as_u16_cast. }
  assert (HE : forall s t, In (s, t) E -> s < n /\ t < n).
  { intros s t H. apply edge_set_in in H. destruct H as ([[i j] w'] & H & [= -> ->]). cbn [fst snd]. apply Hk in H. now rewrite !as_u16_cast. }
  exists (S (length (listing time n z inf E))). intros fuel Hf.
  assert (HL : cell_listing time n z (map fst (trunc_edges edges)) (births_phi time z E) (listing time n z inf E)).
  { eapply listing_same; [|apply (listing_ok HG HE (edge_set_nodup edges))]. intros s t. unfold E. rewrite <- edge_set_trunc.
    apply (@edge_set_small F n); [lia|]. intros [[i j] w] Hp. cbn [fst snd]. eapply He; eauto. }
  destruct (@C51_grpph_with_involution HI F time n z inf (trunc_edges edges) dijkstra Hn He HG Hd _ _ fuel HL Hf) as (ess & prs & reps & H1 & H2 & _).
  exists ess, prs, reps. unfold grpph, grpph_with_involution in *. rewrite edge_set_trunc in H1, H2. split; [exact H2|exact H1].
Qed.
Print Assumptions C80_known_vertices_return.

(** Both cases occur: the second edge of the first list ends at a vertex that does not exist; vertex 65537 of the
    second list is cast to 1. *)
Definition ex80_bad : list (nat * nat * nat_ord) := [(0, 1, 1); (1, 5, 1)].
Definition ex80_time (s t : nat) : option nat_ord := if (s =? 0) && (t =? 1) then Some (1 : nat_ord) else None.
Example C80_ex_hypotheses : filtered_digraph ex80_time 2 (0 : nat_ord) 9 /\ ~ known_vertices 2 ex80_bad /\
  known_vertices 2 [(0, N.to_nat 65537, 1 : nat_ord)].
Proof.
  split; [|split].
  - split.
    + intros s. unfold ex80_time. destruct (Nat.eqb_spec s 0), (Nat.eqb_spec s 1); auto; lia.
    + intros s t f. unfold ex80_time. destruct (Nat.eqb_spec s 0), (Nat.eqb_spec t 1); cbn [andb]; try discriminate. intros [= <-]. subst.
      split; [lia|]. split; [lia|]. split; vm_compute; [discriminate|reflexivity].
  - intros H. destruct (H 1 5 1) as [_ H2]; [simpl; auto|]. revert H2. vm_compute. discriminate.
  - intros s t w [H|[]]. assert (s = 0 /\ t = N.to_nat 65537) as [-> ->] by (split; congruence).
    unfold cast16. rewrite N2Nat.id. split; vm_compute; reflexivity.
Qed.
Example C80_ex_bad : grpph list_heaps 16 (0 : nat_ord) 9 2 ex80_bad ex80_time = Panic.
Proof. vm_compute. reflexivity. Qed.
Example C80_ex_good : grpph list_heaps 16 (0 : nat_ord) 9 2 [(0, 1, 1)] ex80_time = Ok ([[0]; []], [[]; []]).
Proof. vm_compute. reflexivity. Qed.
