(** Model of phlite/src/columns.rs. *)
From Verif Require Import Base Fields.
Set Implicit Arguments.

(* ------------------------------------------------------------------ *)
(** ** [ColumnEntry] *)

(** columns.rs 16-23 *)
Record entry (F R C : Type) : Type := Entry { e_fil : F; e_row : R; e_coeff : C }.
Arguments Entry {F R C} e_fil e_row e_coeff.
Arguments e_fil {F R C} _.
Arguments e_row {F R C} _.
Arguments e_coeff {F R C} _.

(** columns.rs 39-49: [From<(CF, RowT, FilT)>] *)
Definition entry_of_tuple {F R C : Type} (t : C * R * F) : entry F R C :=
  let '(coeff, row, fil) := t in Entry fil row coeff.

(** columns.rs 51-57: [From<ColumnEntry> for (CF, RowT, FilT)] *)
Definition tuple_of_entry {F R C : Type} (e : entry F R C) : C * R * F :=
  (e_coeff e, e_row e, e_fil e).

(** columns.rs 64-69: [PartialEq], equality of row indices only *)
Definition entry_eqb {F C : Type} {R : ordT} (a b : entry F R C) : bool := oeqb (e_row a) (e_row b).

(** columns.rs 79-83: [Ord::cmp], lexicographic on (filtration value, row index) *)
Definition entry_cmp {F R : ordT} {C : Type} (a b : entry F R C) : comparison :=
  @lex_cmp F R (e_fil a, e_row a) (e_fil b, e_row b).

(** columns.rs 85-97: [Mul<CF>], scaling an entry *)
Definition entry_scale {F R : Type} {K : coeffT} (e : entry F R K) (m : K) : entry F R K :=
  Entry (e_fil e) (e_row e) (k_mul (e_coeff e) m).

(** The (coefficient, row) pair of an entry. *)
Definition e_term {F R C : Type} (e : entry F R C) : C * R := (e_coeff e, e_row e).

(* ------------------------------------------------------------------ *)
(** ** [std::collections::BinaryHeap] *)

(** Any max-heap for the comparison [c].  [hp_elems] is the multiset of stored elements. *)
Record heap_impl (A : Type) (c : A -> A -> comparison) : Type := HeapImpl {
  hp : Type;
  hp_empty : hp;
  hp_push : A -> hp -> hp;
  hp_pop : hp -> option (A * hp);
  hp_peek : hp -> option A;
  hp_elems : hp -> list A;
  hp_elems_empty : hp_elems hp_empty = [];
  hp_elems_push : forall a h, Permutation (hp_elems (hp_push a h)) (a :: hp_elems h);
  hp_pop_none : forall h, hp_pop h = None -> hp_elems h = [];
  hp_pop_some : forall h a h', hp_pop h = Some (a, h') ->
     Permutation (hp_elems h) (a :: hp_elems h') /\
     (forall b, In b (hp_elems h) -> c b a <> Gt);
  hp_peek_pop : forall h, hp_peek h = option_map fst (hp_pop h)
}.
Arguments hp {A c} _.
Arguments hp_empty {A c} _.
Arguments hp_push {A c} _ _ _.
Arguments hp_pop {A c} _ _.
Arguments hp_peek {A c} _ _.
Arguments hp_elems {A c} _ _.

(** A heap implementation at every entry type. *)
Definition heaps : Type := forall (F R : ordT) (C : Type), heap_impl (@entry_cmp F R C).

(* ------------------------------------------------------------------ *)
(** ** [BHCol] *)

(** columns.rs 110-112 *)
Definition bhcol (HI : heaps) (F R : ordT) (C : Type) : Type := hp (HI F R C).

(** the stored entries (not observable in Rust; used by the specification) *)
Definition elems {HI : heaps} {F R : ordT} {C : Type} (h : bhcol HI F R C) : list (entry F R C) :=
  hp_elems (HI F R C) h.

(** columns.rs 123-129: [Default] *)
Definition empty_bhcol (HI : heaps) (F R : ordT) (C : Type) : bhcol HI F R C := hp_empty (HI F R C).

Section BHCol.
  Context {HI : heaps} {F R : ordT} {C : Type}.
  Implicit Types (h : bhcol HI F R C).

  (** columns.rs 134-136: [add_entry] *)
  Definition add_entry h (e : entry F R C) : bhcol HI F R C := hp_push (HI F R C) e h.

  (** columns.rs 141-149: [add_entries]; [reserve] has no observable effect *)
  Definition add_entries h (es : list (entry F R C)) : bhcol HI F R C := fold_left add_entry es h.

  (** columns.rs 152-154: [add_tuple] *)
  Definition add_tuple h (t : C * R * F) : bhcol HI F R C := add_entry h (entry_of_tuple t).

  (** columns.rs 157-159: [add_tuples] *)
  Definition add_tuples h (ts : list (C * R * F)) : bhcol HI F R C := add_entries h (map entry_of_tuple ts).

  (** columns.rs 246-248 *)
  Definition peek_pivot h : option (entry F R C) := hp_peek (HI F R C) h.
End BHCol.

Section Pivot.
  Context {HI : heaps} {F R : ordT} {K : coeffT}.
  Implicit Types (h : bhcol HI F R K).

  (** columns.rs 191-218: the [loop] of [pop_pivot] together with the final
      [working_sum.map(..)] (216-220).  The working entry is
      ([wi], [ws], [wf]) = (working_index, working_sum, working_filtration). *)
  Fixpoint pop_loop (fuel : nat) h (wi : R) (ws : option K) (wf : F)
      : res (option (entry F R K) * bhcol HI F R K) :=
    match fuel with
    | O => NoFuel
    | S fuel =>
        let report := option_map (fun c => Entry wf wi c) ws in
        match hp_peek (HI F R K) h with
        | None => Ok (report, h)
        | Some next =>
            let differs := negb (oeqb (e_row next) wi) in
            match differs, ws with
            | true, Some _ => Ok (report, h)
            | _, _ =>
                let '(wi, ws, wf) :=
                  if differs then (e_row next, None, e_fil next) else (wi, ws, wf) in
                do (ne, h') <- unwrap (hp_pop (HI F R K) h);
                pop_loop fuel h' wi (add_opt k_add (e_coeff ne) ws) wf
            end
        end
    end.

  (** columns.rs 181-219: [pop_pivot]; the loop runs at most once per stored entry, plus once *)
  Definition pop_pivot h : res (option (entry F R K) * bhcol HI F R K) :=
    match hp_pop (HI F R K) h with
    | None => Ok (None, h)
    | Some (first, h1) =>
        pop_loop (S (length (elems h1))) h1 (e_row first) (Some (e_coeff first)) (e_fil first)
    end.

  (** columns.rs 164-169: [drain_sorted], consumed to the end; also returns the drained column *)
  Fixpoint drain_loop (fuel : nat) h : res (list (entry F R K) * bhcol HI F R K) :=
    match fuel with
    | O => NoFuel
    | S fuel =>
        do (o, h') <- pop_pivot h;
        match o with
        | None => Ok ([], h')
        | Some e => do (es, h'') <- drain_loop fuel h'; Ok (e :: es, h'')
        end
    end.
  Definition drain_sorted h : res (list (entry F R K) * bhcol HI F R K) :=
    drain_loop (S (length (elems h))) h.

  (** columns.rs 172-177: [to_sorted_vec] *)
  Definition to_sorted_vec h : res (list (entry F R K)) :=
    do (es, _) <- drain_sorted h; Ok es.

  (** columns.rs 222-235: [clone_pivot] *)
  Definition clone_pivot h : res (option (entry F R K) * bhcol HI F R K) :=
    do (o, h') <- pop_pivot h;
    match o with
    | Some pivot => Ok (Some pivot, add_entry h' pivot)
    | None => Ok (None, h')
    end.
End Pivot.

(* ------------------------------------------------------------------ *)
(** ** A concrete heap, so that [heaps] is inhabited *)
Section ListHeap.
  Context {A : Type} (c : A -> A -> comparison).
  Hypothesis c_opp : forall x y, c y x = CompOpp (c x y).
  Hypothesis c_trans : forall x y z, c x y <> Gt -> c y z <> Gt -> c x z <> Gt.

  Fixpoint lh_max (l : list A) : option (A * list A) :=
    match l with
    | [] => None
    | x :: t =>
        match lh_max t with
        | None => Some (x, [])
        | Some (y, t') => match c x y with Gt => Some (x, y :: t') | _ => Some (y, x :: t') end
        end
    end.

  Lemma lh_refl x : c x x <> Gt.
  Proof. intros E. pose proof (c_opp x x) as H. rewrite E in H. discriminate. Qed.

  Lemma lh_max_none l : lh_max l = None -> l = [].
  Proof.
    destruct l as [|x t]; auto. simpl. destruct (lh_max t) as [[y t']|]; [|discriminate].
    destruct (c x y); discriminate.
  Qed.

  Lemma lh_max_some l a l' : lh_max l = Some (a, l') ->
    Permutation l (a :: l') /\ forall b, In b l -> c b a <> Gt.
  Proof.
    revert a l'. induction l as [|x t IH]; simpl; [discriminate|]. intros a l'.
    destruct (lh_max t) as [[y t']|] eqn:Et.
    - destruct (IH _ _ eq_refl) as [Hp Hm].
      destruct (c x y) eqn:E; intros [= <- <-].
      1,2: split; [rewrite Hp; apply perm_swap|]; intros b [<-|Hb]; [congruence|auto].
      split; [now rewrite Hp|]. intros b [<-|Hb]; [apply lh_refl|].
      apply c_trans with y; auto. rewrite c_opp, E. discriminate.
    - intros [= <- <-]. apply lh_max_none in Et. subst. split; auto.
      intros b [<-|[]]. apply lh_refl.
  Qed.

  Definition list_heap_impl : heap_impl c.
  Proof.
    refine (@HeapImpl A c (list A) [] (fun a h => a :: h) lh_max
              (fun h => option_map fst (lh_max h)) (fun h => h) eq_refl _ _ _ _).
    - intros. apply Permutation_refl.
    - apply lh_max_none.
    - apply lh_max_some.
    - reflexivity.
  Defined.
End ListHeap.

Lemma entry_cmp_opp {F R : ordT} {C : Type} (a b : entry F R C) : entry_cmp b a = CompOpp (entry_cmp a b).
Proof. apply lex_cmp_opp. Qed.
Lemma entry_cmp_trans {F R : ordT} {C : Type} (a b d : entry F R C) :
  entry_cmp a b <> Gt -> entry_cmp b d <> Gt -> entry_cmp a d <> Gt.
Proof. exact (@ole_trans (pair_ord F R) (e_fil a, e_row a) (e_fil b, e_row b) (e_fil d, e_row d)). Qed.

Definition list_heaps : heaps := fun F R C =>
  @list_heap_impl (entry F R C) (@entry_cmp F R C) (@entry_cmp_opp F R C) (@entry_cmp_trans F R C).
