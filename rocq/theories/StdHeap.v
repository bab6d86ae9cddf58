(** The algorithm of [std::collections::BinaryHeap] (library/alloc/src/collections/binary_heap/mod.rs: [push], [pop],
    [peek], [sift_up], [sift_down_to_bottom]; rust 1.60 and later) as an instance of the heap contract of [Columns.v].
    The array is a list.  columns.rs only uses [default], [push], [pop], [peek] and [reserve]. *)
From Verif Require Import Base Fields Columns Machine.
From Coq Require Import Lia Permutation Bool.
Set Implicit Arguments.

Section Array.
  Context {A : Type}.
  (** [data[i] = x] *)
  Fixpoint upd (l : list A) (i : nat) (x : A) : list A :=
    match l, i with
    | [], _ => []
    | _ :: t, O => x :: t
    | a :: t, S i => a :: upd t i x
    end.
  Lemma upd_length l i x : length (upd l i x) = length l.
  Proof. revert i; induction l; intros [|i]; simpl; auto. Qed.
  Lemma nth_upd_eq l i x d : i < length l -> nth i (upd l i x) d = x.
  Proof. revert i; induction l; intros [|i]; simpl; intros; try lia; auto. apply IHl. lia. Qed.
  Lemma nth_upd_neq l i j x d : i <> j -> nth j (upd l i x) d = nth j l d.
  Proof. revert i j; induction l; intros [|i] [|j]; simpl; intros; try lia; auto. Qed.
  Lemma upd_nth l i d : upd l i (nth i l d) = l.
  Proof. revert i; induction l; intros [|i]; simpl; auto. now rewrite IHl. Qed.
  Lemma upd_perm l i x d : i < length l -> Permutation (nth i l d :: upd l i x) (x :: l).
  Proof.
    revert i; induction l as [|a l IH]; intros [|i]; simpl; intros H; try lia; [apply perm_swap|].
    rewrite perm_swap. rewrite (IH i) by lia. apply perm_swap.
  Qed.
  (** moving the hole from [i] to [j] *)
  Lemma hole_perm l i j x d : i < length l -> j < length l -> i <> j ->
    Permutation (upd (upd l i (nth j l d)) j x) (upd l i x).
  Proof.
    intros Hi Hj Hn. apply Permutation_cons_inv with (a := nth j l d).
    pose proof (@upd_perm (upd l i (nth j l d)) j x d) as P1. rewrite upd_length in P1. specialize (P1 Hj).
    rewrite nth_upd_neq in P1 by auto. rewrite P1.
    apply Permutation_cons_inv with (a := nth i l d).
    transitivity (x :: nth j l d :: l); [rewrite perm_swap; constructor; now apply upd_perm|].
    rewrite perm_swap. symmetry. rewrite perm_swap. constructor. now apply upd_perm.
  Qed.
End Array.

Section Sift.
  Context {A : Type} (c : A -> A -> comparison).
  Hypothesis c_opp : forall x y, c y x = CompOpp (c x y).
  Hypothesis c_trans : forall x y z, c x y <> Gt -> c y z <> Gt -> c x z <> Gt.
  Definition leb (x y : A) : bool := match c x y with Gt => false | _ => true end.
  Definition parent (i : nat) : nat := (i - 1) / 2.

  (** [sift_up(0, pos)]: [x] is the element taken out of the hole at [pos] *)
  Fixpoint sift_up (fuel : nat) (l : list A) (pos : nat) (x : A) : list A :=
    match fuel with
    | O => upd l pos x
    | S fuel =>
        if pos =? 0 then upd l pos x
        else if leb x (nth (parent pos) l x) then upd l pos x
        else sift_up fuel (upd l pos (nth (parent pos) l x)) (parent pos) x
    end.
  (** the loop of [sift_down_to_bottom(0)] and the final [if]: moves the hole down, always to the greater child *)
  Fixpoint sink (fuel : nat) (l : list A) (pos : nat) (x : A) : list A * nat :=
    match fuel with
    | O => (l, pos)
    | S fuel =>
        let child := 2 * pos + 1 in
        if child <=? length l - 2 then
          let child := if leb (nth child l x) (nth (child + 1) l x) then child + 1 else child in
          sink fuel (upd l pos (nth child l x)) child x
        else if child =? length l - 1 then (upd l pos (nth child l x), child)
        else (l, pos)
    end.
  Definition ah_push (x : A) (l : list A) : list A := sift_up (length l) (l ++ [x]) (length l) x.
  Definition ah_pop (l : list A) : option (A * list A) :=
    match rev l with
    | [] => None
    | item :: t =>
        match rev t with
        | [] => Some (item, [])
        | top :: _ =>
            let l := rev t in
            let '(l, pos) := sink (length l) l 0 item in
            Some (top, sift_up pos l pos item)
        end
    end.
  Definition ah_peek (l : list A) : option A := match l with [] => None | x :: _ => Some x end.

  (** the heap order *)
  Definition heap (l : list A) : Prop := forall d i, 0 < i < length l -> leb (nth i l d) (nth (parent i) l d) = true.
  (** boolean version, so that two heaps with the same array are equal *)
  Definition heapb (l : list A) : bool :=
    forallb (fun i => match nth_error l i, nth_error l (parent i) with Some x, Some y => leb x y | _, _ => true end) (seq 1 (length l - 1)).

  Lemma leb_refl x : leb x x = true.
  Proof. unfold leb. pose proof (c_opp x x). destruct (c x x); auto; discriminate. Qed.
  Lemma leb_trans x y z : leb x y = true -> leb y z = true -> leb x z = true.
  Proof. unfold leb. intros H1 H2. pose proof (@c_trans x y z). destruct (c x y), (c y z), (c x z); auto; try discriminate; exfalso; apply H; congruence. Qed.
  Lemma leb_total x y : leb x y = false -> leb y x = true.
  Proof. unfold leb. rewrite (c_opp x y). destruct (c x y); auto; discriminate. Qed.
  Lemma parent_lt i : 0 < i -> parent i < i.
  Proof. unfold parent. intros. pose proof (Nat.div_mod (i - 1) 2). pose proof (Nat.mod_upper_bound (i - 1) 2). lia. Qed.
  Lemma parent_child i j : 0 < i -> (parent i = j <-> i = 2 * j + 1 \/ i = 2 * j + 2).
  Proof. unfold parent. intros. pose proof (Nat.div_mod (i - 1) 2). pose proof (Nat.mod_upper_bound (i - 1) 2). lia. Qed.
  Lemma heapb_iff l : heapb l = true <-> heap l.
  Proof.
    unfold heapb. rewrite forallb_forall. split.
    - intros H d i Hi. specialize (H i). rewrite in_seq in H. specialize (H ltac:(lia)). pose proof (@parent_lt i ltac:(lia)).
      rewrite (nth_error_nth' l d) in H by lia. rewrite (nth_error_nth' l d) in H by lia. exact H.
    - intros H i Hi. apply in_seq in Hi. destruct (nth_error l i) as [x|] eqn:E; auto. destruct (nth_error l (parent i)) as [y|] eqn:E2; auto.
      specialize (H x i ltac:(lia)). now rewrite (nth_error_nth _ _ x E), (nth_error_nth _ _ x E2) in H.
  Qed.

  (** the array is a heap except for the hole at [pos], whose children do not exceed its parent *)
  Definition holed (l : list A) (pos : nat) : Prop :=
    pos < length l /\
    (forall d i, 0 < i < length l -> i <> pos -> parent i <> pos -> leb (nth i l d) (nth (parent i) l d) = true) /\
    (forall d i, 0 < pos -> 0 < i < length l -> parent i = pos -> leb (nth i l d) (nth (parent pos) l d) = true).
  Lemma sift_up_ok fuel : forall l pos x, pos <= fuel -> holed l pos ->
    (forall d i, 0 < i < length l -> parent i = pos -> leb (nth i l d) x = true) ->
    heap (sift_up fuel l pos x) /\ Permutation (sift_up fuel l pos x) (upd l pos x).
  Proof.
    assert (Hfill : forall l pos x, holed l pos -> (forall d i, 0 < i < length l -> parent i = pos -> leb (nth i l d) x = true) ->
      (0 < pos -> forall d, leb x (nth (parent pos) l d) = true) -> heap (upd l pos x)).
    { intros l pos x (Hl & H1 & H2) Hx Hp d i Hi. rewrite upd_length in Hi. destruct (Nat.eq_dec i pos) as [->|Hn].
      - rewrite nth_upd_eq by auto. pose proof (@parent_lt pos ltac:(lia)). rewrite nth_upd_neq by lia. apply Hp; lia.
      - rewrite nth_upd_neq by auto. destruct (Nat.eq_dec (parent i) pos) as [E|E].
        + rewrite E, nth_upd_eq by auto. now apply Hx.
        + rewrite nth_upd_neq by auto. now apply H1. }
    induction fuel as [|fuel IH]; intros l pos x Hf Hh Hx; cbn [sift_up].
    { split; auto. apply Hfill; auto; lia. }
    destruct (Nat.eqb_spec pos 0) as [->|H0]; [split; auto; apply Hfill; auto; lia|].
    pose proof (@parent_lt pos ltac:(lia)) as Hpl. destruct Hh as (Hl & H1 & H2).
    assert (Ex : forall d, nth (parent pos) l d = nth (parent pos) l x) by (intros d; apply nth_indep; lia).
    destruct (leb x (nth (parent pos) l x)) eqn:E.
    { split; auto. apply Hfill; [now repeat split|auto|]. intros _ d. now rewrite Ex. }
    apply leb_total in E.
    destruct (IH (upd l pos (nth (parent pos) l x)) (parent pos) x) as [I1 I2]; [lia| | |].
    - split; [rewrite upd_length; lia|]. split.
      + intros d i Hi Hn1 Hn2. rewrite upd_length in Hi. destruct (Nat.eq_dec i pos) as [->|Hn]; [congruence|].
        rewrite nth_upd_neq by auto. destruct (Nat.eq_dec (parent i) pos) as [Ei|Ei].
        * rewrite Ei, nth_upd_eq by auto. rewrite <- (Ex d). apply H2; auto; lia.
        * rewrite nth_upd_neq by auto. apply H1; auto.
      + intros d i Hpp Hi Ei. rewrite upd_length in Hi. pose proof (@parent_lt (parent pos) Hpp).
        rewrite (nth_upd_neq l (nth (parent pos) l x) d (i:=pos) (j:=parent (parent pos))) by lia.
        assert (Hpar : leb (nth (parent pos) l d) (nth (parent (parent pos)) l d) = true) by (apply H1; lia).
        destruct (Nat.eq_dec i pos) as [->|Hn]; [rewrite nth_upd_eq by auto; now rewrite <- (Ex d)|].
        rewrite nth_upd_neq by auto. apply leb_trans with (nth (parent pos) l d); auto. rewrite <- Ei. apply H1; auto; try lia.
    - intros d i Hi Ei. rewrite upd_length in Hi. destruct (Nat.eq_dec i pos) as [->|Hn]; [rewrite nth_upd_eq by auto; exact E|].
      rewrite nth_upd_neq by auto. apply leb_trans with (nth (parent pos) l d); [rewrite <- Ei; apply H1; auto; lia|now rewrite Ex].
    - split; auto. rewrite I2. apply hole_perm; auto; lia.
  Qed.

  Lemma push_ok x l : heap l -> heap (ah_push x l) /\ Permutation (ah_push x l) (x :: l).
  Proof.
    intros H. unfold ah_push. assert (Hlen : length (l ++ [x]) = S (length l)) by (rewrite app_length; simpl; lia).
    destruct (@sift_up_ok (length l) (l ++ [x]) (length l) x) as [H1 H2]; auto.
    - split; [lia|]. rewrite Hlen. split.
      + intros d i Hi Hn _. pose proof (@parent_lt i ltac:(lia)). rewrite !app_nth1 by lia. apply H. lia.
      + intros d i _ Hi E. pose proof (@parent_lt i ltac:(lia)). lia.
    - rewrite Hlen. intros d i Hi E. pose proof (@parent_lt i ltac:(lia)). lia.
    - split; auto. rewrite H2. assert (E : upd (l ++ [x]) (length l) x = l ++ [x]).
      { rewrite <- (@upd_nth _ (l ++ [x]) (length l) x) at 2. now rewrite app_nth2, Nat.sub_diag by lia. }
      rewrite E. symmetry. apply Permutation_cons_append.
  Qed.

  Lemma sink_ok fuel : forall l pos x, length l <= fuel + pos -> holed l pos ->
    let r := sink fuel l pos x in holed (fst r) (snd r) /\ length l <= 2 * snd r + 1 /\ Permutation (upd (fst r) (snd r) x) (upd l pos x).
  Proof.
    induction fuel as [|fuel IH]; intros l pos x Hf (Hl & H1 & H2); [lia|]. cbn [sink].
    set (ch := if leb (nth (2 * pos + 1) l x) (nth (2 * pos + 1 + 1) l x) then 2 * pos + 1 + 1 else 2 * pos + 1).
    (* moving the hole from [pos] to the greater child [ch] *)
    assert (Hmove : forall ch, (ch = 2 * pos + 1 \/ ch = 2 * pos + 2) -> ch < length l ->
      (forall d i, 0 < i < length l -> parent i = pos -> leb (nth i l d) (nth ch l d) = true) ->
      holed (upd l pos (nth ch l x)) ch).
    { clear ch IH. intros ch Hch Hcl Hmax. assert (Hpc : parent ch = pos) by (apply parent_child; lia).
      assert (Ex : forall d, nth ch l d = nth ch l x) by (intros d; apply nth_indep; lia).
      split; [now rewrite upd_length|]. rewrite upd_length. split.
      - intros d i Hi Hn1 Hn2. destruct (Nat.eq_dec i pos) as [->|Hn].
        + rewrite nth_upd_eq by auto. pose proof (@parent_lt pos ltac:(lia)). rewrite nth_upd_neq by lia. rewrite <- (Ex d). apply H2; auto; lia.
        + rewrite nth_upd_neq by auto. destruct (Nat.eq_dec (parent i) pos) as [Ei|Ei].
          * rewrite Ei, nth_upd_eq by auto. rewrite <- (Ex d). auto.
          * rewrite nth_upd_neq by auto. apply H1; auto.
      - intros d i _ Hi Ei. pose proof (@parent_lt i ltac:(lia)). pose proof (@parent_lt ch ltac:(lia)). rewrite Hpc, nth_upd_eq by auto. rewrite nth_upd_neq by lia.
        rewrite <- (Ex d). rewrite <- Ei. apply H1; auto; lia. }
    destruct (Nat.leb_spec (2 * pos + 1) (length l - 2)) as [Hc|Hc].
    - destruct (Nat.eq_dec (length l) 1) as [|Hl1]; [lia|].
      assert (Hch : ch = 2 * pos + 1 \/ ch = 2 * pos + 2) by (unfold ch; destruct (leb _ _); lia).
      assert (Hcl : ch < length l) by lia.
      assert (Hmax : forall d i, 0 < i < length l -> parent i = pos -> leb (nth i l d) (nth ch l d) = true).
      { intros d i Hi Ei. rewrite (nth_indep l d x) by lia. rewrite (nth_indep l d x (n:=ch)) by lia. apply parent_child in Ei; [|lia]. unfold ch.
        replace (2 * pos + 2) with (2 * pos + 1 + 1) in Ei by lia.
        destruct (leb (nth (2 * pos + 1) l x) (nth (2 * pos + 1 + 1) l x)) eqn:El; destruct Ei as [-> | ->]; auto using leb_refl, leb_total. }
      destruct (IH (upd l pos (nth ch l x)) ch x) as (I1 & I2 & I3); [rewrite upd_length; lia|auto|].
      cbv zeta in *. split; auto. rewrite upd_length in I2. split; auto. rewrite I3. apply hole_perm; auto; lia.
    - destruct (Nat.eqb_spec (2 * pos + 1) (length l - 1)) as [He|He]; cbn [fst snd].
      + assert (Hcl : 2 * pos + 1 < length l) by lia. split; [|split; [lia|apply hole_perm; auto; lia]]. apply Hmove; auto.
        intros d i Hi Ei. apply parent_child in Ei; [|lia]. destruct Ei as [->|]; [apply leb_refl|lia].
      + split; [now repeat split|]. split; auto. destruct (length l) as [|[|n]]; lia.
  Qed.

  Lemma heap_top l d : heap l -> forall n i, i <= n -> i < length l -> leb (nth i l d) (nth 0 l d) = true.
  Proof.
    intros H. induction n as [|n IH]; intros i Hi Hl; [replace i with 0 by lia; apply leb_refl|].
    destruct (Nat.eq_dec i 0) as [->|]; [apply leb_refl|]. pose proof (@parent_lt i ltac:(lia)). apply leb_trans with (nth (parent i) l d); [apply H; lia|apply IH; lia].
  Qed.
  Lemma pop_none l : ah_pop l = None -> l = [].
  Proof.
    unfold ah_pop. destruct (rev l) as [|item t] eqn:E; [intros _; now rewrite <- (rev_involutive l), E|].
    destruct (rev t) as [|top u]; [discriminate|]. destruct (sink _ _ _ _). discriminate.
  Qed.
  Lemma pop_ok l a l' : heap l -> ah_pop l = Some (a, l') -> heap l' /\ Permutation l (a :: l') /\ ah_peek l = Some a /\ forall b, In b l -> c b a <> Gt.
  Proof.
    intros H. assert (Htop : forall b t, l = b :: t -> forall y, In y l -> c y b <> Gt).
    { intros b t -> y Hy. destruct (In_nth _ _ b Hy) as (i & Hi & <-). pose proof (@heap_top _ b H i i (le_n _) Hi) as X. unfold leb in X. intros E. change (nth 0 (b :: t) b) with b in X. rewrite E in X. discriminate. }
    unfold ah_pop. destruct (rev l) as [|item t] eqn:E; [discriminate|]. assert (El : l = rev t ++ [item]) by (rewrite <- (rev_involutive l), E; reflexivity).
    destruct (rev t) as [|top u] eqn:Et.
    - intros [= <- <-]. cbn in El. subst l. repeat split; [intros d i Hi; cbn in Hi; lia|auto|]. apply (Htop item []); auto.
    - set (m := top :: u) in *. pose proof (@sink_ok (length m) m 0 item) as S. cbv zeta in S. destruct (sink (length m) m 0 item) as [l2 pos] eqn:Es. cbn [fst snd] in S.
      intros [= <- <-]. destruct S as ((S1 & S2 & S3) & S4 & S5); [lia| |].
      { split; [unfold m; simpl; lia|]. split; [|intros; lia]. intros d i Hi _ _. pose proof (@parent_lt i ltac:(lia)).
        clear - H El Hi H0. clearbody m. specialize (H d i). rewrite El in H. rewrite app_length in H. rewrite (app_nth1 m [item] d (n:=i)) in H by lia. rewrite (app_nth1 m [item] d (n:=parent i)) in H by lia. apply H. simpl. lia. }
      assert (Hlen : length l2 = length m). { apply Permutation_length in S5. rewrite !upd_length in S5. exact S5. }
      assert (Hno : forall i, 0 < i < length l2 -> parent i <> pos) by (intros i Hi Ei; apply parent_child in Ei; lia).
      destruct (@sift_up_ok pos l2 pos item) as [U1 U2]; [lia|now repeat split| |].
      { intros d i Hi Ei. now apply Hno in Ei. }
      split; auto. split; [|split].
      + rewrite U2, S5, El. unfold m. cbn [upd app]. constructor. symmetry. apply Permutation_cons_append.
      + rewrite El. reflexivity.
      + apply (Htop top (u ++ [item])). rewrite El. reflexivity.
  Qed.
  Lemma peek_pop l : heap l -> ah_peek l = option_map fst (ah_pop l).
  Proof.
    intros H. destruct (ah_pop l) as [[a l']|] eqn:E; cbn [option_map fst]; [now apply pop_ok in E|]. apply pop_none in E. now subst.
  Qed.

  Definition std_hp : Type := { l : list A | heapb l = true }.
  Lemma std_hp_eq (x y : std_hp) : proj1_sig x = proj1_sig y -> x = y.
  Proof. destruct x as [x Hx], y as [y Hy]. cbn. intros ->. f_equal. apply Eqdep_dec.UIP_dec. apply bool_dec. Qed.
  Definition std_push (x : A) (h : std_hp) : std_hp :=
    exist _ (ah_push x (proj1_sig h)) (proj2 (heapb_iff _) (proj1 (push_ok x (proj1 (heapb_iff _) (proj2_sig h))))).
  Definition std_wrap (h : std_hp) (o : option (A * list A)) : ah_pop (proj1_sig h) = o -> option (A * std_hp) :=
    match o as o return ah_pop (proj1_sig h) = o -> option (A * std_hp) with
    | None => fun _ => None
    | Some (a, l) => fun E => Some (a, exist _ l (proj2 (heapb_iff _) (proj1 (pop_ok (proj1 (heapb_iff _) (proj2_sig h)) E))))
    end.
  Definition std_pop (h : std_hp) : option (A * std_hp) := std_wrap h eq_refl.
  Lemma std_pop_proj h : option_map (fun p => (fst p, proj1_sig (snd p))) (std_pop h) = ah_pop (proj1_sig h).
  Proof.
    assert (G : forall o E, option_map (fun p : A * std_hp => (fst p, proj1_sig (snd p))) (@std_wrap h o E) = o) by (intros [[a l]|] E; reflexivity).
    apply G.
  Qed.
  Definition std_heap_impl : heap_impl c.
  Proof.
    refine (@HeapImpl A c std_hp (exist _ [] eq_refl) std_push std_pop (fun h => ah_peek (proj1_sig h)) (@proj1_sig _ _) eq_refl _ _ _ _).
    - intros x h. apply push_ok. apply heapb_iff. apply proj2_sig.
    - intros h E. pose proof (std_pop_proj h) as P. rewrite E in P. now apply pop_none.
    - intros h a h' E. pose proof (std_pop_proj h) as P. rewrite E in P. symmetry in P. cbn [option_map fst snd] in P. apply pop_ok in P; [tauto|]. apply heapb_iff. apply proj2_sig.
    - intros h. rewrite peek_pop by (apply heapb_iff; apply proj2_sig). rewrite <- std_pop_proj. now destruct (std_pop h) as [[a h']|].
  Defined.
End Sift.

(** The heaps of the Rust standard library. *)
Definition std_heaps : heaps := fun F R C =>
  @std_heap_impl (entry F R C) (@entry_cmp F R C) (@entry_cmp_opp F R C) (@entry_cmp_trans F R C).

(** It only compares entries, so it is uniform in the coefficients. *)
Section Map.
  Context {A B : Type} (c : A -> A -> comparison) (c' : B -> B -> comparison) (g : A -> B).
  Hypothesis Hg : forall x y, c' (g x) (g y) = c x y.
  Lemma upd_map l i x : upd (map g l) i (g x) = map g (upd l i x).
  Proof. revert i; induction l as [|a l IH]; intros [|i]; cbn; auto. now rewrite IH. Qed.
  Lemma leb_map x y : leb c' (g x) (g y) = leb c x y.
  Proof. unfold leb. now rewrite Hg. Qed.
  Lemma sift_up_map fuel l pos x : sift_up c' fuel (map g l) pos (g x) = map g (sift_up c fuel l pos x).
  Proof.
    revert l pos. induction fuel as [|fuel IH]; intros l pos; cbn [sift_up]; [apply upd_map|]. rewrite map_nth, leb_map.
    destruct (pos =? 0); [apply upd_map|]. destruct (leb c x _); [apply upd_map|]. rewrite upd_map. apply IH.
  Qed.
  Lemma sink_map fuel l pos x : sink c' fuel (map g l) pos (g x) = (map g (fst (sink c fuel l pos x)), snd (sink c fuel l pos x)).
  Proof.
    revert l pos. induction fuel as [|fuel IH]; intros l pos; cbn [sink]; auto. rewrite !map_nth, leb_map, map_length.
    destruct (_ <=? _); [rewrite upd_map; apply IH|]. destruct (_ =? _); auto. cbn [fst snd]. now rewrite upd_map.
  Qed.
  Lemma push_map x l : ah_push c' (g x) (map g l) = map g (ah_push c x l).
  Proof. unfold ah_push. rewrite map_length. rewrite <- sift_up_map. now rewrite map_app. Qed.
  Lemma pop_map l : ah_pop c' (map g l) = option_map (fun p => (g (fst p), map g (snd p))) (ah_pop c l).
  Proof.
    unfold ah_pop. rewrite <- map_rev. destruct (rev l) as [|item t]; cbn [map]; auto. rewrite <- map_rev. destruct (rev t) as [|top u] eqn:E; cbn [map]; auto.
    change (g top :: map g u) with (map g (top :: u)). rewrite map_length. rewrite sink_map. destruct (sink c _ (top :: u) 0 item) as [l2 pos]. cbn [fst snd option_map].
    now rewrite sift_up_map.
  Qed.
  Lemma forallb_ext_in_std {X} (p q : X -> bool) l : (forall x, In x l -> p x = q x) -> forallb p l = forallb q l.
  Proof. induction l; cbn; intros H; auto. rewrite H by auto. rewrite IHl; auto. Qed.
  Lemma heapb_map l : heapb c' (map g l) = heapb c l.
  Proof.
    unfold heapb. rewrite map_length. apply forallb_ext_in_std. intros i _. rewrite !nth_error_map. destruct (nth_error l i); cbn [option_map]; auto. destruct (nth_error l (parent i)); cbn [option_map]; auto. apply leb_map.
  Qed.
End Map.

Definition std_hmap (F R : ordT) (X Y : Type) (f : X -> Y) (h : bhcol std_heaps F R X) : bhcol std_heaps F R Y :=
  exist _ (map (emap f) (proj1_sig h)) (eq_trans (@heapb_map _ _ (@entry_cmp F R X) (@entry_cmp F R Y) (emap f) (fun _ _ => eq_refl) (proj1_sig h)) (proj2_sig h)).
Definition std_heaps_uniform : uniform std_heaps.
Proof.
  refine (@Uniform std_heaps std_hmap _ _ _ _).
  - intros F R X Y f. apply std_hp_eq. reflexivity.
  - intros F R X Y f e h. apply std_hp_eq. symmetry. exact (@push_map _ _ (@entry_cmp F R X) (@entry_cmp F R Y) (emap f) (fun _ _ => eq_refl) e (proj1_sig h)).
  - intros F R X Y f h.
    pose proof (@std_pop_proj _ (@entry_cmp F R X) (@entry_cmp_opp F R X) (@entry_cmp_trans F R X) h) as P1.
    pose proof (@std_pop_proj _ (@entry_cmp F R Y) (@entry_cmp_opp F R Y) (@entry_cmp_trans F R Y) (std_hmap f h)) as P2.
    cbn [std_hmap proj1_sig] in P2. rewrite (@pop_map _ _ (@entry_cmp F R X) (@entry_cmp F R Y) (emap f) (fun _ _ => eq_refl)) in P2. rewrite <- P1 in P2.
    change (hp_pop (std_heaps F R Y)) with (@std_pop _ (@entry_cmp F R Y) (@entry_cmp_opp F R Y) (@entry_cmp_trans F R Y)).
    change (hp_pop (std_heaps F R X)) with (@std_pop _ (@entry_cmp F R X) (@entry_cmp_opp F R X) (@entry_cmp_trans F R X)).
    destruct (std_pop _ _ (std_hmap f h)) as [[a h1]|], (std_pop _ _ h) as [[b h2]|]; cbn [option_map fst snd] in *; try discriminate; auto.
    injection P2 as E1 E2. rewrite E1. do 2 f_equal. now apply std_hp_eq.
  - reflexivity.
Defined.
