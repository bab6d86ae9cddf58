(** Property theorem C83: the columns on the algorithm of [std::collections::BinaryHeap]. *)
From Verif Require Import Base Fields FieldsFacts Spec LinAlg Columns ColumnsFacts Matrices SpecMat MatricesFacts Reduction Examples Machine StdHeap PropFields PropStandard PropClearing PropMachine.
From Coq Require Import Lia Permutation.
Set Implicit Arguments.
Local Open Scope nat_scope.

(** a use of the heap: entries pushed and popped in any order *)
Inductive heap_op (A : Type) : Type := Push (x : A) | Pop.
Arguments Push {A} x.
Arguments Pop {A}.
(** what the program sees: the results of the [Pop]s *)
Fixpoint run_heap {A : Type} (c : A -> A -> comparison) (ops : list (heap_op A)) (data : list A) : list (option A) :=
  match ops with
  | [] => []
  | Push x :: ops => run_heap c ops (ah_push c x data)
  | Pop :: ops => match ah_pop c data with None => None :: run_heap c ops data | Some (a, data) => Some a :: run_heap c ops data end
  end.
(** Specification: [results] are possible results of the [Pop]s on a multiset [m]: [None] when it is empty,
    otherwise some element that no other exceeds, which is removed once. *)
Inductive max_bag {A : Type} (c : A -> A -> comparison) : list (heap_op A) -> list A -> list (option A) -> Prop :=
| mb_done m : max_bag c [] m []
| mb_push x ops m rs : max_bag c ops (x :: m) rs -> max_bag c (Push x :: ops) m rs
| mb_none ops rs : max_bag c ops [] rs -> max_bag c (Pop :: ops) [] (None :: rs)
| mb_some a ops m m' rs : Permutation m (a :: m') -> (forall b, In b m -> c b a <> Gt) -> max_bag c ops m' rs -> max_bag c (Pop :: ops) m (Some a :: rs).

Theorem C83_std_heap_history : forall (F R : ordT) (C : Type) (ops : list (heap_op (entry F R C))),
  max_bag (@entry_cmp F R C) ops [] (run_heap (@entry_cmp F R C) ops []).
Proof.
  intros F R C. assert (Inv : forall ops m data, heap (@entry_cmp F R C) data -> Permutation m data -> max_bag (@entry_cmp F R C) ops m (run_heap (@entry_cmp F R C) ops data)).
  { induction ops as [|[x|] ops IH]; intros m data Hh Hm; cbn [run_heap].
    - constructor.
    - constructor. destruct (@push_ok _ _ (@entry_cmp_opp F R C) (@entry_cmp_trans F R C) x data Hh) as [P1 P2]. apply IH; auto. rewrite P2. now constructor.
    - destruct (ah_pop (@entry_cmp F R C) data) as [[a data']|] eqn:E.
      + destruct (@pop_ok _ _ (@entry_cmp_opp F R C) (@entry_cmp_trans F R C) _ _ _ Hh E) as (P1 & P2 & _ & P3). apply mb_some with (m' := data'); [now rewrite Hm| |now apply IH].
        intros b Hb. apply P3. now rewrite <- Hm.
      + apply pop_none in E. subst data. apply Permutation_sym, Permutation_nil in Hm. subst m. constructor. now apply IH. }
  intros ops. apply Inv; [intros d i Hi; cbn in Hi; lia|constructor].
Qed.
Print Assumptions C83_std_heap_history.

(** With that heap and [ZP] on [u8]: nothing is left abstract between the code of the reductions and the machine. *)
Theorem C83_std_standard :
  forall (p : Z) (Hp : In p [3; 5; 7; 11; 13]%Z) (C F : ordT) (phi : C -> F) (D : xmatrix (zp_mach p) C C F) (b : basis C) (l : list C),
  valid_entries (A:=zp_mach p) (fun a : Z => 1 <= a < p)%Z D ->
  let D0 := ideal (zp_mk p Hp : zp_mach p -> ZP_coeff p Hp) D in
  square_matrix phi D0 b l -> forall fuel, length (row_set (m_col D0) l) < fuel -> forall reverse_order,
  exists v dg, x_standard_algo_with_diagram std_heaps fuel D b reverse_order = Ok (v, dg) /\
    forall i j, In (i, j) (pairings dg) <-> In j l /\ is_pair phi l (mden (m_col D0)) i j.
Proof.
  intros p Hp C F phi D b l Hv D0 Hsq fuel Hf ro.
  destruct (@C81_ZP_standard p Hp std_heaps std_heaps_uniform C F phi D b l Hv Hsq fuel Hf ro) as (v & dg & E & _ & _ & H). eauto.
Qed.
Theorem C83_std_clearing :
  forall (p : Z) (Hp : In p [3; 5; 7; 11; 13]%Z) (C F : ordT) (phi : C -> F) (D : xmatrix (zp_mach p) C C F) (sb : split_basis C) (dims : list nat) (blocks : list (list C)),
  valid_entries (A:=zp_mach p) (fun a : Z => 1 <= a < p)%Z D ->
  let D0 := ideal (zp_mk p Hp : zp_mach p -> ZP_coeff p Hp) D in
  block_complex phi D0 sb dims blocks -> forall fuel, length (row_set (m_col D0) (concat blocks)) < fuel ->
  exists rc dg, x_build_with_diagram std_heaps fuel D sb dims = Ok (rc, dg) /\
    forall l', NoDup l' -> (forall c, In c l' <-> In c (concat blocks)) -> (forall blk x y, In blk blocks -> before blk x y -> before l' x y) ->
      (forall i j, In (i, j) (pairings dg) <-> In j l' /\ is_pair phi l' (mden (m_col D0)) i j) /\
      (forall c, In c (essential dg) <-> is_essential phi l' (mden (m_col D0)) c).
Proof.
  intros p Hp C F phi D sb dims blocks Hv D0 HB fuel Hf.
  destruct (@C81_ZP_clearing p Hp std_heaps std_heaps_uniform C F phi D sb dims blocks Hv HB fuel Hf) as (v & dg & E & _ & _ & H). eauto.
Qed.
Print Assumptions C83_std_standard.
Print Assumptions C83_std_clearing.

(** The hypotheses of the last two are met by [C81_ex_hyps] and [C81_ex_block]. *)
Example C83_ex_history : run_heap (@entry_cmp nat_ord nat_ord nat)
  [Pop; Push (@Entry nat nat nat 1 1 10); Push (@Entry nat nat nat 2 5 11); Push (@Entry nat nat nat 1 9 12); Push (@Entry nat nat nat 2 5 13); Pop; Pop; Push (@Entry nat nat nat 0 8 14); Pop; Pop; Pop; Pop] [] =
  [None; Some (@Entry nat nat nat 2 5 11); Some (@Entry nat nat nat 2 5 13); Some (@Entry nat nat nat 1 9 12); Some (@Entry nat nat nat 1 1 10); Some (@Entry nat nat nat 0 8 14); None].
Proof. vm_compute. reflexivity. Qed.
Example C83_ex_run : exists v, x_standard_algo_with_diagram std_heaps 100 (xcols ztri tri_fil) (standard_basis 7) false =
  Ok (v, @Diagram nat_ord [0] [(5, 6); (2, 4); (1, 3)]) /\ map_get (5 : nat_ord) v = Some [zt 1 5; zt 2 4; zt 1 3].
Proof. eexists. split; vm_compute; reflexivity. Qed.
Example C83_ex_hyps_clearing : valid_entries (A:=zp_mach 3) (fun a : Z => 1 <= a < 3)%Z (xcols ztri tri_fil) /\
  block_complex (F:=nat_ord) tri_fil (ideal (zp_mk 3 prime3 : zp_mach 3 -> ZP_coeff 3 prime3) (xcols ztri tri_fil)) tri_sb [2; 1; 0] tri_blocks.
Proof. split; [apply C81_ex_hyps|apply C81_ex_block]. Qed.
