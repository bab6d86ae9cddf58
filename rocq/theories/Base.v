(** Common infrastructure: panics, total orders, finite maps and sets.

    Nothing in this file models phlite itself; it fixes how Rust notions are
    represented (see DESIGN.md). *)
From Coq Require Export List Arith ZArith NArith Lia Bool Permutation.
Export ListNotations.
Set Implicit Arguments.

(* ------------------------------------------------------------------ *)
(** ** Results of computations that may panic *)

(** [Ok a]: normal return.  [Panic]: the Rust code panics ([unwrap] on
    [None], [expect], out-of-bounds index, [panic!], arithmetic overflow in
    a build with overflow checks).  [NoFuel]: the model ran out of fuel in
    an unbounded loop; theorems exclude it explicitly. *)
Inductive res (A : Type) : Type :=
| Ok (a : A)
| Panic
| NoFuel.
Arguments Ok {A} a.
Arguments Panic {A}.
Arguments NoFuel {A}.

Definition bind {A B} (m : res A) (k : A -> res B) : res B :=
  match m with
  | Ok a => k a
  | Panic => Panic
  | NoFuel => NoFuel
  end.

Notation "'do' x <- m ; k" := (bind m (fun x => k))
  (at level 200, x pattern, m at level 100, k at level 200, right associativity).

(** [Option::unwrap] / [Option::expect]. *)
Definition unwrap {A} (o : option A) : res A :=
  match o with Some a => Ok a | None => Panic end.

(** Iterator [map] with a closure that may panic, fully consumed. *)
Fixpoint mapM {A B} (f : A -> res B) (l : list A) : res (list B) :=
  match l with
  | [] => Ok []
  | x :: t => do y <- f x; do ys <- mapM f t; Ok (y :: ys)
  end.

(** Iterator [flat_map] with a closure that may panic, fully consumed. *)
Definition flat_mapM {A B} (f : A -> res (list B)) (l : list A) : res (list B) :=
  do ll <- mapM f l; Ok (concat ll).

(** Iterator [filter_map] with a closure that may panic. *)
Fixpoint filter_mapM {A B} (f : A -> res (option B)) (l : list A) : res (list B) :=
  match l with
  | [] => Ok []
  | x :: t =>
      do y <- f x; do ys <- filter_mapM f t;
      Ok (match y with Some b => b :: ys | None => ys end)
  end.

(** A [for] loop over an iterator threading mutable state. *)
Fixpoint foldM {A S} (f : S -> A -> res S) (l : list A) (s : S) : res S :=
  match l with
  | [] => Ok s
  | x :: t => do s' <- f s x; foldM f t s'
  end.

(** Slice / [Vec] indexing: out-of-bounds panics. *)
Definition index {A} (l : list A) (i : nat) : res A := unwrap (nth_error l i).

(* ------------------------------------------------------------------ *)
(** ** Total orders: the contract of Rust's [Ord] *)

Record ordT : Type := OrdT {
  car :> Type;
  cmp : car -> car -> comparison;
  cmp_eq_iff : forall x y, cmp x y = Eq <-> x = y;
  cmp_opp : forall x y, cmp y x = CompOpp (cmp x y);
  cmp_trans : forall x y z, cmp x y = Lt -> cmp y z = Lt -> cmp x z = Lt
}.
Arguments cmp {o} x y.
Arguments car o : simpl never.

Definition oeqb {T : ordT} (x y : T) : bool :=
  match cmp x y with Eq => true | _ => false end.
Definition oltb {T : ordT} (x y : T) : bool :=
  match cmp x y with Lt => true | _ => false end.
Definition oleb {T : ordT} (x y : T) : bool :=
  match cmp x y with Gt => false | _ => true end.
(** [Ord::max]: returns the second argument when equal (irrelevant here,
    equal elements are identical). *)
Definition omax {T : ordT} (x y : T) : T := if oleb x y then y else x.

Definition olt {T : ordT} (x y : T) : Prop := cmp x y = Lt.
Definition ole {T : ordT} (x y : T) : Prop := cmp x y <> Gt.

Section OrdFacts.
  Context {T : ordT}.
  Implicit Types x y z : T.

  Lemma cmp_refl x : cmp x x = Eq.
  Proof. now apply cmp_eq_iff. Qed.

  Lemma cmp_eq x y : cmp x y = Eq -> x = y.
  Proof. apply cmp_eq_iff. Qed.

  Lemma cmp_gt_lt x y : cmp x y = Gt <-> cmp y x = Lt.
  Proof. rewrite (cmp_opp T x y). destruct (cmp x y); simpl; split; congruence. Qed.

  Lemma oeqb_spec x y : reflect (x = y) (oeqb x y).
  Proof.
    unfold oeqb. destruct (cmp x y) eqn:E; constructor.
    - now apply cmp_eq.
    - intros ->. rewrite cmp_refl in E. discriminate.
    - intros ->. rewrite cmp_refl in E. discriminate.
  Qed.

  Lemma oeqb_refl x : oeqb x x = true.
  Proof. unfold oeqb. now rewrite cmp_refl. Qed.

  Lemma oeqb_eq x y : oeqb x y = true <-> x = y.
  Proof. destruct (oeqb_spec x y); split; congruence. Qed.

  Lemma oeqb_neq x y : oeqb x y = false <-> x <> y.
  Proof. destruct (oeqb_spec x y); split; congruence. Qed.

  Definition ord_eq_dec x y : {x = y} + {x <> y}.
  Proof.
    destruct (oeqb x y) eqn:E; [left; exact (proj1 (oeqb_eq x y) E)|right; exact (proj1 (oeqb_neq x y) E)].
  Defined.

  Lemma olt_irrefl x : ~ olt x x.
  Proof. unfold olt. rewrite cmp_refl. discriminate. Qed.

  Lemma olt_trans x y z : olt x y -> olt y z -> olt x z.
  Proof. apply cmp_trans. Qed.

  Lemma olt_le x y : olt x y -> ole x y.
  Proof. unfold olt, ole. congruence. Qed.

  Lemma ole_refl x : ole x x.
  Proof. unfold ole. rewrite cmp_refl. discriminate. Qed.

  Lemma ole_lt_eq x y : ole x y <-> olt x y \/ x = y.
  Proof.
    unfold ole, olt. split.
    - destruct (cmp x y) eqn:E; intros H; auto. right; now apply cmp_eq. congruence.
    - intros [H| ->]; [congruence|]. rewrite cmp_refl. discriminate.
  Qed.

  Lemma ole_trans x y z : ole x y -> ole y z -> ole x z.
  Proof.
    rewrite !ole_lt_eq. intros [H1| ->] [H2| ->]; auto.
    left; eapply olt_trans; eauto.
  Qed.

  Lemma ole_lt_trans x y z : ole x y -> olt y z -> olt x z.
  Proof. rewrite ole_lt_eq. intros [H1| ->] H2; auto. eapply olt_trans; eauto. Qed.

  Lemma olt_le_trans x y z : olt x y -> ole y z -> olt x z.
  Proof. rewrite ole_lt_eq. intros H1 [H2| <-]; auto. eapply olt_trans; eauto. Qed.

  Lemma ole_antisym x y : ole x y -> ole y x -> x = y.
  Proof.
    rewrite !ole_lt_eq. intros [H1| ->] [H2|H2]; auto.
    exfalso. eapply olt_irrefl, olt_trans; eauto.
  Qed.

  Lemma olt_not_le x y : olt x y <-> ~ ole y x.
  Proof.
    unfold olt, ole. rewrite (cmp_opp T x y).
    destruct (cmp x y); simpl; split; intros H; try congruence;
      try (exfalso; apply H; discriminate).
  Qed.

  Lemma ole_not_lt x y : ole x y <-> ~ olt y x.
  Proof.
    unfold olt, ole. rewrite (cmp_opp T x y).
    destruct (cmp x y); simpl; split; intros H; try congruence;
      try (exfalso; apply H; discriminate); discriminate.
  Qed.

  Lemma olt_total x y : olt x y \/ x = y \/ olt y x.
  Proof.
    unfold olt. destruct (cmp x y) eqn:E; auto.
    - right; left; now apply cmp_eq.
    - right; right; now apply cmp_gt_lt.
  Qed.

  Lemma ole_total x y : ole x y \/ ole y x.
  Proof.
    destruct (olt_total x y) as [H|[->|H]]; auto using olt_le, ole_refl.
  Qed.

  Lemma oltb_spec x y : reflect (olt x y) (oltb x y).
  Proof. unfold oltb, olt. destruct (cmp x y); constructor; congruence. Qed.

  Lemma oleb_spec x y : reflect (ole x y) (oleb x y).
  Proof.
    unfold oleb, ole. destruct (cmp x y); constructor; try congruence.
  Qed.

  Lemma omax_le_l x y : ole x (omax x y).
  Proof. unfold omax. destruct (oleb_spec x y); auto using ole_refl. Qed.

  Lemma omax_le_r x y : ole y (omax x y).
  Proof.
    unfold omax. destruct (oleb_spec x y) as [H|H]; auto using ole_refl.
    apply olt_le. now apply olt_not_le.
  Qed.

  Lemma omax_case x y : omax x y = x \/ omax x y = y.
  Proof. unfold omax. destruct (oleb x y); auto. Qed.

  Lemma omax_lub x y z : ole x z -> ole y z -> ole (omax x y) z.
  Proof. intros H1 H2. destruct (omax_case x y) as [->| ->]; auto. Qed.
End OrdFacts.

(* ------------------------------------------------------------------ *)
(** ** Instances of [ordT] *)

Lemma nat_cmp_trans x y z : Nat.compare x y = Lt -> Nat.compare y z = Lt -> Nat.compare x z = Lt.
Proof. rewrite !Nat.compare_lt_iff. lia. Qed.
Lemma nat_cmp_opp x y : Nat.compare y x = CompOpp (Nat.compare x y).
Proof. apply Nat.compare_antisym. Qed.
(** [usize], [u16] and other bounded counters. *)
Definition nat_ord : ordT := @OrdT nat Nat.compare Nat.compare_eq_iff nat_cmp_opp nat_cmp_trans.

Lemma N_cmp_trans x y z : N.compare x y = Lt -> N.compare y z = Lt -> N.compare x z = Lt.
Proof. rewrite !N.compare_lt_iff. lia. Qed.
Lemma N_cmp_opp x y : N.compare y x = CompOpp (N.compare x y).
Proof. apply N.compare_antisym. Qed.
Definition N_ord : ordT := @OrdT N N.compare N.compare_eq_iff N_cmp_opp N_cmp_trans.

Lemma Z_cmp_trans x y z : Z.compare x y = Lt -> Z.compare y z = Lt -> Z.compare x z = Lt.
Proof. rewrite !Z.compare_lt_iff. lia. Qed.
Lemma Z_cmp_opp x y : Z.compare y x = CompOpp (Z.compare x y).
Proof. apply Z.compare_antisym. Qed.
Definition Z_ord : ordT := @OrdT Z Z.compare Z.compare_eq_iff Z_cmp_opp Z_cmp_trans.

Definition unit_cmp (_ _ : unit) : comparison := Eq.
Lemma unit_cmp_eq x y : unit_cmp x y = Eq <-> x = y.
Proof. destruct x, y; unfold unit_cmp; tauto. Qed.
Lemma unit_cmp_opp x y : unit_cmp y x = CompOpp (unit_cmp x y).
Proof. reflexivity. Qed.
Lemma unit_cmp_trans x y z : unit_cmp x y = Lt -> unit_cmp y z = Lt -> unit_cmp x z = Lt.
Proof. discriminate. Qed.
(** The unit type [()], the trivial filtration value. *)
Definition unit_ord : ordT := @OrdT unit unit_cmp unit_cmp_eq unit_cmp_opp unit_cmp_trans.

(** [std::cmp::Reverse<T>]. *)
Record reverse (A : Type) : Type := Reverse { unrev : A }.
Arguments Reverse {A} unrev.
Arguments unrev {A} r.
Definition rev_cmp {T : ordT} (x y : reverse T) : comparison := cmp (unrev y) (unrev x).
Lemma rev_cmp_eq (T : ordT) (x y : reverse T) : rev_cmp x y = Eq <-> x = y.
Proof.
  destruct x as [x], y as [y]. unfold rev_cmp. simpl. rewrite cmp_eq_iff.
  split; [now intros ->| now intros [=->]].
Qed.
Lemma rev_cmp_opp (T : ordT) (x y : reverse T) : rev_cmp y x = CompOpp (rev_cmp x y).
Proof. unfold rev_cmp. apply cmp_opp. Qed.
Lemma rev_cmp_trans (T : ordT) (x y z : reverse T) :
  rev_cmp x y = Lt -> rev_cmp y z = Lt -> rev_cmp x z = Lt.
Proof. unfold rev_cmp. intros H1 H2. eapply cmp_trans; eauto. Qed.
Definition rev_ord (T : ordT) : ordT :=
  @OrdT (reverse T) (@rev_cmp T) (@rev_cmp_eq T) (@rev_cmp_opp T) (@rev_cmp_trans T).

(** Rust's lexicographic order on pairs. *)
Definition lex_cmp {A B : ordT} (x y : A * B) : comparison :=
  match cmp (fst x) (fst y) with Eq => cmp (snd x) (snd y) | c => c end.
Lemma lex_cmp_eq (A B : ordT) (x y : A * B) : lex_cmp x y = Eq <-> x = y.
Proof.
  destruct x as [a b], y as [a' b']; unfold lex_cmp; simpl. split.
  - destruct (cmp a a') eqn:E; try discriminate.
    intros E'. apply cmp_eq in E, E'. congruence.
  - intros [= -> ->]. now rewrite !cmp_refl.
Qed.
Lemma lex_cmp_opp (A B : ordT) (x y : A * B) : lex_cmp y x = CompOpp (lex_cmp x y).
Proof.
  unfold lex_cmp. rewrite (cmp_opp A (fst x) (fst y)), (cmp_opp B (snd x) (snd y)).
  destruct (cmp (fst x) (fst y)); reflexivity.
Qed.
Lemma lex_cmp_trans (A B : ordT) (x y z : A * B) :
  lex_cmp x y = Lt -> lex_cmp y z = Lt -> lex_cmp x z = Lt.
Proof.
  destruct x as [a b], y as [a' b'], z as [a'' b'']; unfold lex_cmp; simpl.
  destruct (cmp a a') eqn:E1; try discriminate.
  - apply cmp_eq in E1. subst. destruct (cmp a' a'') eqn:E2; try discriminate; auto.
    apply cmp_trans.
  - intros _. destruct (cmp a' a'') eqn:E2; try discriminate.
    + apply cmp_eq in E2. subst. now rewrite E1.
    + intros _. now rewrite (cmp_trans A _ _ _ E1 E2).
Qed.
Definition pair_ord (A B : ordT) : ordT :=
  @OrdT (A * B) (@lex_cmp A B) (@lex_cmp_eq A B) (@lex_cmp_opp A B) (@lex_cmp_trans A B).

(* ------------------------------------------------------------------ *)
(** ** Finite maps ([FxHashMap]) and sets ([FxHashSet]) *)

(** A hash map is an association list; only [get]/[insert]/[contains_key]
    are used by the code, so layout and hashing are unobservable. *)
Definition kmap (K : ordT) (V : Type) : Type := list (K * V).

Fixpoint map_get {K : ordT} {V} (k : K) (m : kmap K V) : option V :=
  match m with
  | [] => None
  | (k', v) :: t => if oeqb k' k then Some v else map_get k t
  end.

Definition map_insert {K : ordT} {V} (k : K) (v : V) (m : kmap K V) : kmap K V :=
  (k, v) :: filter (fun p => negb (oeqb (fst p) k)) m.

Definition map_mem {K : ordT} {V} (k : K) (m : kmap K V) : bool :=
  match map_get k m with Some _ => true | None => false end.

Fixpoint set_mem {K : ordT} (k : K) (s : list K) : bool :=
  match s with [] => false | x :: t => oeqb x k || set_mem k t end.

Definition set_insert {K : ordT} (k : K) (s : list K) : list K :=
  if set_mem k s then s else k :: s.

Definition set_remove {K : ordT} (k : K) (s : list K) : list K :=
  filter (fun x => negb (oeqb x k)) s.

Section MapFacts.
  Context {K : ordT} {V : Type}.

  Lemma map_get_filter_neq (k k' : K) (m : kmap K V) :
    k' <> k -> map_get k (filter (fun p => negb (oeqb (fst p) k')) m) = map_get k m.
  Proof.
    intros Hne. induction m as [|[a v] m IH]; simpl; auto.
    destruct (oeqb_spec a k') as [->|Ha]; simpl.
    - rewrite IH. destruct (oeqb_spec k' k); congruence.
    - rewrite IH. reflexivity.
  Qed.

  Lemma map_get_insert (k k' : K) (v : V) (m : kmap K V) :
    map_get k (map_insert k' v m) = if oeqb k' k then Some v else map_get k m.
  Proof.
    unfold map_insert. simpl. destruct (oeqb_spec k' k); auto.
    now apply map_get_filter_neq.
  Qed.

  Lemma map_get_insert_eq (k : K) (v : V) (m : kmap K V) :
    map_get k (map_insert k v m) = Some v.
  Proof. rewrite map_get_insert, oeqb_refl. reflexivity. Qed.

  Lemma map_get_insert_neq (k k' : K) (v : V) (m : kmap K V) :
    k' <> k -> map_get k (map_insert k' v m) = map_get k m.
  Proof. rewrite map_get_insert. intros H. apply oeqb_neq in H. now rewrite H. Qed.

  Lemma map_get_in (k : K) (v : V) (m : kmap K V) :
    map_get k m = Some v -> In (k, v) m.
  Proof.
    induction m as [|[a w] m IH]; simpl; [discriminate|].
    destruct (oeqb_spec a k) as [->|]; auto. intros [= ->]. auto.
  Qed.
End MapFacts.

Section SetFacts.
  Context {K : ordT}.

  Lemma set_mem_iff (k : K) s : set_mem k s = true <-> In k s.
  Proof.
    induction s as [|x s IH]; simpl; [split; [discriminate|tauto]|].
    rewrite orb_true_iff, IH, oeqb_eq. tauto.
  Qed.

  Lemma in_set_insert (k x : K) s : In x (set_insert k s) <-> x = k \/ In x s.
  Proof.
    unfold set_insert. destruct (set_mem k s) eqn:E; simpl.
    - apply set_mem_iff in E. split; auto. intros [->|H]; auto.
    - split; intros [H|H]; auto.
  Qed.

  Lemma in_set_remove (k x : K) s : In x (set_remove k s) <-> x <> k /\ In x s.
  Proof.
    unfold set_remove. rewrite filter_In, negb_true_iff, oeqb_neq. tauto.
  Qed.

  Lemma nodup_set_insert (k : K) s : NoDup s -> NoDup (set_insert k s).
  Proof.
    intros H. unfold set_insert. destruct (set_mem k s) eqn:E; auto.
    constructor; auto. rewrite <- set_mem_iff, E. discriminate.
  Qed.

  Lemma nodup_set_remove (k : K) s : NoDup s -> NoDup (set_remove k s).
  Proof. apply NoDup_filter. Qed.
End SetFacts.

(* ------------------------------------------------------------------ *)
(** ** Facts about the [res] monad *)

Lemma bind_Ok {A B} (m : res A) (k : A -> res B) b :
  bind m k = Ok b <-> exists a, m = Ok a /\ k a = Ok b.
Proof.
  split.
  - destruct m; simpl; try discriminate. eauto.
  - intros (a & -> & H). exact H.
Qed.

Lemma mapM_Ok {A B} (f : A -> res B) l l' :
  mapM f l = Ok l' <-> Forall2 (fun x y => f x = Ok y) l l'.
Proof.
  revert l'. induction l as [|x l IH]; intros l'; simpl.
  - split; [intros [= <-]; constructor | inversion 1; reflexivity].
  - rewrite bind_Ok. split.
    + intros (y & Hy & H). apply bind_Ok in H. destruct H as (ys & Hys & [= <-]).
      constructor; auto. now apply IH.
    + inversion 1; subst. eexists; split; eauto. apply bind_Ok.
      eexists; split; [apply IH; eauto|reflexivity].
Qed.

Lemma mapM_ext {A B} (f g : A -> res B) l :
  (forall x, In x l -> f x = g x) -> mapM f l = mapM g l.
Proof.
  induction l as [|x l IH]; simpl; intros H; auto.
  rewrite (H x) by auto. destruct (g x); simpl; auto.
  rewrite IH; auto.
Qed.

Lemma mapM_pure {A B} (f : A -> res B) (g : A -> B) l :
  (forall x, In x l -> f x = Ok (g x)) -> mapM f l = Ok (map g l).
Proof.
  induction l as [|x l IH]; simpl; intros H; auto.
  rewrite (H x) by auto. simpl. rewrite IH; auto.
Qed.

Lemma flat_mapM_pure {A B} (f : A -> res (list B)) (g : A -> list B) l :
  (forall x, In x l -> f x = Ok (g x)) -> flat_mapM f l = Ok (flat_map g l).
Proof.
  intros H. unfold flat_mapM. rewrite (@mapM_pure _ _ f g) by auto. simpl.
  now rewrite <- flat_map_concat_map.
Qed.

Lemma flat_mapM_ext {A B} (f g : A -> res (list B)) l :
  (forall x, In x l -> f x = g x) -> flat_mapM f l = flat_mapM g l.
Proof. intros H. unfold flat_mapM. now rewrite (mapM_ext f g l H). Qed.

Lemma filter_mapM_pure {A B} (f : A -> res (option B)) (g : A -> option B) l :
  (forall x, In x l -> f x = Ok (g x)) ->
  filter_mapM f l = Ok (flat_map (fun x => match g x with Some b => [b] | None => [] end) l).
Proof.
  induction l as [|x l IH]; simpl; intros H; auto.
  rewrite (H x) by auto. simpl. rewrite IH by auto. simpl.
  destruct (g x); reflexivity.
Qed.

Lemma foldM_app {A S} (f : S -> A -> res S) l1 l2 s :
  foldM f (l1 ++ l2) s = do s' <- foldM f l1 s; foldM f l2 s'.
Proof.
  revert s. induction l1 as [|x l1 IH]; intros s; simpl; auto.
  destruct (f s x); simpl; auto.
Qed.

Lemma index_lt {A} (l : list A) i : i < length l -> exists x, index l i = Ok x /\ nth_error l i = Some x.
Proof.
  intros H. unfold index. destruct (nth_error l i) eqn:E; simpl; eauto.
  apply nth_error_None in E. lia.
Qed.

Lemma index_ge {A} (l : list A) i : length l <= i -> index l i = Panic.
Proof. intros H. unfold index. apply nth_error_None in H. now rewrite H. Qed.

Lemma index_Ok {A} (l : list A) i x : index l i = Ok x <-> nth_error l i = Some x.
Proof.
  unfold index, unwrap. destruct (nth_error l i); split; congruence.
Qed.
