(** Lemmas for C101: components and edges of graphs, minimum spanning trees (Kruskal). *)
From Verif Require Import Base SpecRips PropRipsComponents PropGrpphStability.
From Coq Require Import Permutation Lia Arith.
Set Implicit Arguments.

(** ** Specification: spanning trees *)
(** a list of edges on the points below [n] that joins all of them *)
Definition connects (n : nat) (T : list (nat * nat)) : Prop :=
  (forall a b, In (a, b) T -> a < n /\ b < n) /\ forall i j, i < n -> j < n -> linked T i j.
(** a spanning tree on [n] points: [n - 1] edges that join all of them *)
Definition spanning_tree (n : nat) (T : list (nat * nat)) : Prop := connects n T /\ length T = n - 1.
(** the lengths of the edges *)
Definition lengths {F : ordT} (z : F) (d : list (list F)) (T : list (nat * nat)) : list F := map (fun e => dist z d (fst e) (snd e)) T.
(** every number of the first list can be matched with a number of the second list that is no smaller, using each at most once *)
Definition dominated {F : ordT} (l l' : list F) : Prop :=
  exists (M : list (F * F)) (rest : list F), Permutation l (map fst M) /\ Permutation l' (map snd M ++ rest) /\ forall x y, In (x, y) M -> ole x y.

(** ** Counting labels *)
Definition kernel (label : nat -> nat) (E : list (nat * nat)) : Prop := forall i j, label i = label j <-> linked E i j.
Lemma labels_le (f g : nat -> nat) n : (forall i j, i < n -> j < n -> f i = f j -> g i = g j) -> number_of_labels g n <= number_of_labels f n.
Proof.
  intros H. unfold number_of_labels.
  set (h := fun b => match find (fun v => f v =? b) (seq 0 n) with Some v => g v | None => 0 end).
  assert (Hh : forall v, v < n -> h (f v) = g v).
  { intros v Hv. unfold h. destruct (find (fun w => f w =? f v) (seq 0 n)) as [w|] eqn:E.
    - apply find_some in E. destruct E as [E1 E2]. apply in_seq in E1. apply Nat.eqb_eq in E2. apply H; auto; lia.
    - exfalso. assert (Hin : In v (seq 0 n)) by (apply in_seq; lia). pose proof (find_none _ _ E v Hin) as Hx. cbv beta in Hx. rewrite Nat.eqb_refl in Hx. discriminate. }
  rewrite <- (map_length h (nodup Nat.eq_dec (map f (seq 0 n)))).
  apply NoDup_incl_length; [apply NoDup_nodup|]. intros b Hb. rewrite nodup_In, in_map_iff in Hb. destruct Hb as (v & <- & Hv).
  apply in_map_iff. exists (f v). apply in_seq in Hv as Hv'. split; [apply Hh; lia|]. apply nodup_In, in_map_iff. eauto.
Qed.
Lemma labels_eq (f g : nat -> nat) n : (forall i j, i < n -> j < n -> (f i = f j <-> g i = g j)) -> number_of_labels g n = number_of_labels f n.
Proof. intros H. apply Nat.le_antisymm; apply labels_le; intros i j Hi Hj E; now apply H. Qed.
Lemma remove_length (l : list nat) a : NoDup l -> In a l -> length (remove Nat.eq_dec a l) = length l - 1.
Proof.
  induction l as [|x l IH]; intros Hn Ha; [destruct Ha|]. apply NoDup_cons_iff in Hn. destruct Hn as [Hx Hn]. cbn [remove]. destruct (Nat.eq_dec a x) as [->|Hne].
  - rewrite notin_remove by auto. cbn [length]. lia.
  - destruct Ha as [->|Ha]; [congruence|]. cbn [length]. rewrite IH by auto. destruct l; [destruct Ha|cbn [length]; lia].
Qed.
Definition joined_label (f : nat -> nat) (a b v : nat) : nat := if f v =? f a then f b else f v.
Lemma joined_kernel f a b E : kernel f E -> kernel (joined_label f a b) ((a, b) :: E).
Proof.
  intros Hf.
  assert (Hab : linked ((a, b) :: E) a b) by (eapply linked_step; [constructor|left; now left]).
  assert (Hm : forall i j, f i = f j -> linked ((a, b) :: E) i j) by (intros i j H; apply (@linked_mono E); [now right|now apply Hf]).
  unfold joined_label. intros i j. split.
  + destruct (Nat.eqb_spec (f i) (f a)) as [Ei|Ei]; destruct (Nat.eqb_spec (f j) (f a)) as [Ej|Ej]; intros H.
    * apply Hm. congruence.
    * eapply linked_trans; [apply Hm, Ei|]. eapply linked_trans; [exact Hab|]. now apply Hm.
    * eapply linked_trans; [apply Hm, H|]. apply linked_sym. eapply linked_trans; [apply Hm, Ej|exact Hab].
    * now apply Hm.
  + induction 1 as [|i j k H IH He]; auto. rewrite IH. clear IH H.
    assert (Hstep : forall x y, In (x, y) ((a, b) :: E) -> (if f x =? f a then f b else f x) = (if f y =? f a then f b else f y)).
    { intros x y [Exy|Hxy].
      - injection Exy as <- <-. rewrite Nat.eqb_refl. destruct (Nat.eqb_spec (f b) (f a)); congruence.
      - assert (Ef : f x = f y) by (apply Hf; eapply linked_step; [constructor|left; exact Hxy]). now rewrite Ef. }
    destruct He as [He|He]; [auto|symmetry; auto].
Qed.
Lemma joined_number f a b n : a < n -> b < n -> f a <> f b -> number_of_labels (joined_label f a b) n = number_of_labels f n - 1.
Proof.
  intros Ha Hb Hne. unfold number_of_labels.
  assert (Hfa : In (f a) (nodup Nat.eq_dec (map f (seq 0 n)))) by (apply nodup_In, in_map_iff; exists a; split; auto; apply in_seq; lia). rewrite <- (@remove_length _ (f a)) by (auto using NoDup_nodup).
  assert (Hnr : NoDup (remove Nat.eq_dec (f a) (nodup Nat.eq_dec (map f (seq 0 n))))).
  { pose proof (NoDup_nodup Nat.eq_dec (map f (seq 0 n))) as Hn. revert Hn. generalize (nodup Nat.eq_dec (map f (seq 0 n))). intros l Hl. induction Hl as [|x l Hx Hl IH]; [constructor|]. cbn [remove]. destruct (Nat.eq_dec (f a) x); auto. constructor; auto. intros Hin. apply in_remove in Hin. tauto. }
  apply Nat.le_antisymm; apply NoDup_incl_length; auto using NoDup_nodup; intros x Hx.
  - rewrite nodup_In, in_map_iff in Hx. destruct Hx as (v & E & Hv). apply in_in_remove.
    + subst x. unfold joined_label. destruct (Nat.eqb_spec (f v) (f a)); auto.
    + apply nodup_In, in_map_iff. subst x. unfold joined_label. destruct (Nat.eqb_spec (f v) (f a)); [exists b; split; auto; apply in_seq; lia|eauto].
  - apply in_remove in Hx. destruct Hx as [Hx Hxa]. rewrite nodup_In, in_map_iff in *. destruct Hx as (v & E & Hv). exists v. split; auto. unfold joined_label. destruct (Nat.eqb_spec (f v) (f a)); congruence.
Qed.
Lemma joined_number_le f a b n : number_of_labels f n <= S (number_of_labels (joined_label f a b) n).
Proof.
  unfold number_of_labels. apply Nat.le_trans with (length (f a :: nodup Nat.eq_dec (map (joined_label f a b) (seq 0 n)))); [|cbn [length]; lia].
  apply NoDup_incl_length; [apply NoDup_nodup|]. intros x Hx. rewrite nodup_In, in_map_iff in Hx. destruct Hx as (v & <- & Hv).
  destruct (Nat.eq_dec (f v) (f a)) as [E|E]; [left; auto|right]. apply nodup_In, in_map_iff. exists v. split; auto. unfold joined_label. destruct (Nat.eqb_spec (f v) (f a)); congruence.
Qed.
(** [k] more edges join at most [k] components *)
Lemma more_edges E E' n f g : kernel f E -> kernel g (E' ++ E) -> number_of_labels f n <= length E' + number_of_labels g n.
Proof.
  revert g. induction E' as [|[a b] E' IH]; intros g Hf Hg.
  - cbn [app length] in *. rewrite (@labels_eq f g n); [lia|]. intros i j _ _. rewrite (Hf i j), (Hg i j). tauto.
  - cbn [app] in Hg. destruct (labels_linked (E' ++ E)) as (h & Hh). specialize (IH h Hf Hh).
    pose proof (joined_kernel a b Hh) as Hj. rewrite (@labels_eq (joined_label h a b) g n) by (intros i j _ _; rewrite (Hj i j), (Hg i j); tauto).
    pose proof (joined_number_le h a b n). cbn [length]. lia.
Qed.
Lemma no_edges f n : kernel f [] -> number_of_labels f n = n.
Proof.
  intros Hf. rewrite (@labels_eq (fun v => v) f n).
  - unfold number_of_labels. rewrite map_id, nodup_fixed_point by apply seq_NoDup. apply seq_length.
  - intros i j _ _. rewrite (Hf i j). split; [intros ->; constructor|]. induction 1 as [|i j k H IH [[]|[]]]; auto.
Qed.

Lemma one_label_le n : number_of_labels (fun _ => 0) n <= 1.
Proof.
  unfold number_of_labels. apply Nat.le_trans with (length [0]); auto. apply NoDup_incl_length; [apply NoDup_nodup|]. intros x Hx. apply nodup_In, in_map_iff in Hx. destruct Hx as (y & <- & _). now left.
Qed.
Lemma one_label_eq n : 1 <= n -> number_of_labels (fun _ => 0) n = 1.
Proof.
  intros Hn. pose proof (one_label_le n). unfold number_of_labels in *. assert (Hx : In 0 (nodup Nat.eq_dec (map (fun _ : nat => 0) (seq 0 n)))) by (apply nodup_In, in_map_iff; exists 0; split; auto; apply in_seq; lia).
  destruct (nodup Nat.eq_dec (map (fun _ : nat => 0) (seq 0 n))) as [|a l]; [destruct Hx|cbn [length] in *; lia].
Qed.

(** ** Kruskal's algorithm: the heaviest edge is considered last *)
Section Kruskal.
  Context {F : ordT} (w : nat * nat -> F) (n : nat).
  Definition upto (t : F) (E : list (nat * nat)) : list (nat * nat) := filter (fun e => oleb (w e) t) E.
  Lemma upto_all t E : (forall e, In e E -> ole (w e) t) -> upto t E = E.
  Proof.
    induction E as [|e E IH]; intros H; auto. cbn [upto filter]. fold (upto t E). rewrite IH by (intros; apply H; now right). destruct (oleb_spec (w e) t) as [|Hn]; auto. exfalso. apply Hn, H. now left.
  Qed.
  (** a list of edges in order of decreasing weight *)
  Fixpoint decreasing (E : list (nat * nat)) : Prop := match E with [] => True | e :: E => (forall e', In e' E -> ole (w e') (w e)) /\ decreasing E end.
  Lemma kruskal E : decreasing E -> (forall a b, In (a, b) E -> a < n /\ b < n) ->
    exists T, incl T E /\ forall t f, kernel f (upto t E) -> kernel f (upto t T) /\ length (upto t T) + number_of_labels f n = n.
  Proof.
    induction E as [|[a b] E IH]; intros Hdec Hin.
    - exists []. split; [intros x []|]. intros t f Hf. split; auto. cbn [upto filter length]. now rewrite no_edges.
    - destruct Hdec as [Hmax Hdec]. destruct (IH Hdec ltac:(intros; apply Hin; now right)) as (T & HT & HK). destruct (labels_linked E) as (g & Hg).
      destruct (Hin a b (or_introl eq_refl)) as [Ha Hb].
      assert (Hall : forall t, ole (w (a, b)) t -> upto t E = E /\ upto t T = T).
      { intros t Ht. split; apply upto_all; intros e He; (eapply ole_trans; [apply Hmax|exact Ht]); auto. }
      destruct (Nat.eq_dec (g a) (g b)) as [Eab|Eab].
      + exists T. split; [intros e He; right; auto|]. intros t f Hf. cbn [upto filter] in Hf. fold (upto t E) in Hf. destruct (oleb_spec (w (a, b)) t) as [Ht|Ht]; [|now apply HK].
        apply HK. destruct (Hall t Ht) as [-> _]. rewrite (proj1 (Hall t Ht)) in Hf. intros i j. rewrite (Hf i j). split; [|apply linked_mono; now right].
        induction 1 as [|i j k H IHl He]; [constructor|]. eapply linked_trans; [exact IHl|]. apply Hg in Eab. destruct He as [[He|He]|[He|He]].
        * injection He as <- <-. exact Eab.
        * eapply linked_step; [constructor|auto].
        * injection He as <- <-. now apply linked_sym.
        * eapply linked_step; [constructor|auto].
      + exists ((a, b) :: T). split; [intros e [He|He]; [left; auto|right; auto]|]. intros t f Hf. cbn [upto filter] in Hf |- *. fold (upto t E) in Hf. fold (upto t T). destruct (oleb_spec (w (a, b)) t) as [Ht|Ht]; [|now apply HK].
        destruct (Hall t Ht) as [E1 E2]. rewrite E1 in Hf. assert (Hg' : kernel g (upto t E)) by now rewrite E1. destruct (HK t g Hg') as [K1 K2]. rewrite E2 in *.
        pose proof (joined_kernel a b Hg) as J1. pose proof (joined_kernel a b K1) as J2.
        assert (Ef : forall i j, f i = f j <-> joined_label g a b i = joined_label g a b j) by (intros i j; rewrite (Hf i j), (J1 i j); tauto).
        split; [intros i j; rewrite (Ef i j), (J2 i j); tauto|]. rewrite (@labels_eq (joined_label g a b) f n) by (intros i j _ _; rewrite (Ef i j); tauto).
        rewrite joined_number by auto. cbn [length].
        assert (1 <= number_of_labels g n). { unfold number_of_labels. assert (Hx : In (g a) (nodup Nat.eq_dec (map g (seq 0 n)))) by (apply nodup_In, in_map_iff; exists a; split; auto; apply in_seq; lia). destruct (nodup Nat.eq_dec (map g (seq 0 n))); [destruct Hx|cbn; lia]. }
        lia.
  Qed.
  (** every list of edges can be put in decreasing order *)
  Lemma insert_decreasing e E : decreasing E -> exists E', Permutation (e :: E) E' /\ decreasing E'.
  Proof.
    induction E as [|e' E IH]; intros H; [exists [e]; split; auto; split; [intros x []|exact I]|]. destruct H as [H1 H2]. destruct (ole_total (w e') (w e)) as [Hle|Hle].
    - exists (e :: e' :: E). split; auto. split; [|split; auto]. intros x [<-|Hx]; auto. eapply ole_trans; [apply H1|]; auto.
    - destruct (IH H2) as (E' & P & D). exists (e' :: E'). split; [rewrite perm_swap; now constructor|]. split; auto. intros x Hx. apply (Permutation_in _ (Permutation_sym P)) in Hx. destruct Hx as [<-|Hx]; auto.
  Qed.
  Lemma sort_decreasing E : exists E', Permutation E E' /\ decreasing E'.
  Proof.
    induction E as [|e E (E' & P & D)]; [exists []; split; auto; exact I|]. destruct (@insert_decreasing e E' D) as (E2 & P2 & D2). exists E2. split; auto. rewrite <- P2. now constructor.
  Qed.
End Kruskal.

(** ** Comparing lists by counting *)
Lemma above_length {F : ordT} (t : F) l : above t l + length (filter (fun x => oleb x t) l) = length l.
Proof.
  induction l as [|a l IH]; auto. rewrite above_cons. cbn [filter]. destruct (oltb_spec t a) as [H|H]; destruct (oleb_spec a t) as [H'|H']; cbn [length]; try lia.
  - exfalso. apply olt_not_le in H. auto.
  - exfalso. apply H. now apply olt_not_le.
Qed.
Lemma above_dominated {F : ordT} : forall n (l l' : list F), length l = n -> length l <= length l' -> (forall t, above t l <= above t l') -> dominated l l'.
Proof.
  induction n as [|n IH]; intros l l' El Hlen H.
  - destruct l; [|discriminate]. exists [], l'. split; [constructor|]. split; [apply Permutation_refl|intros x y []].
  - destruct (@max_split F l) as (x & l1 & P & Hx); [intros ->; discriminate|]. destruct (@max_split F l') as (y & l1' & P' & Hy); [intros ->; cbn in Hlen; lia|].
    assert (Hxy : ole x y).
    { destruct (oleb_spec x y) as [|Hn]; auto. exfalso. apply olt_not_le in Hn. specialize (H y). rewrite (@above_0 F y l') in H by auto. rewrite (above_perm y P), above_cons in H. destruct (oltb_spec y x); [lia|contradiction]. }
    destruct (IH l1 l1') as (M & rest & Q1 & Q2 & Q3).
    + apply Permutation_length in P. cbn [length] in P. lia.
    + apply Permutation_length in P, P'. cbn [length] in P, P'. lia.
    + intros t. specialize (H t). rewrite (above_perm t P), (above_perm t P'), !above_cons in H. destruct (oltb_spec t x) as [Ht|Ht].
      * destruct (oltb_spec t y) as [_|Hty]; [lia|]. exfalso. apply Hty. eapply olt_le_trans; eauto.
      * assert (above t l1 = 0); [|lia]. apply above_0. intros u Hu. assert (ole u x) by (apply Hx, (Permutation_in _ (Permutation_sym P)); now right). eapply ole_trans; eauto. now apply ole_not_lt.
    + exists ((x, y) :: M), rest. cbn [map fst snd app]. split; [rewrite P; now constructor|]. split; [rewrite P'; now constructor|]. intros a b [[= <- <-]|Hab]; auto.
Qed.
Lemma dominated_perm {F : ordT} (l l' : list F) : length l = length l' -> (forall t, above t l = above t l') -> Permutation l l'.
Proof.
  intros El H. assert (Hs : forall n (l l' : list F), length l = n -> length l' = n -> (forall t, above t l = above t l') -> Permutation l l').
  { clear. induction n as [|n IH]; intros l l' E E' H.
    - destruct l, l'; try discriminate. constructor.
    - destruct (@max_split F l) as (x & l1 & P & Hx); [intros ->; discriminate|]. destruct (@max_split F l') as (y & l1' & P' & Hy); [intros ->; discriminate|].
      assert (Hone : forall (k k' : list F) a b ka kb, Permutation k (a :: ka) -> Permutation k' (b :: kb) -> (forall c, In c k' -> ole c b) -> (forall t, above t k = above t k') -> ole a b).
      { intros k k' a b ka kb P1 P2 Hb Hk. destruct (oleb_spec a b) as [|Hn]; auto. exfalso. apply olt_not_le in Hn. specialize (Hk b). rewrite (@above_0 F b k') in Hk by auto. rewrite (above_perm b P1), above_cons in Hk. destruct (oltb_spec b a); [lia|contradiction]. }
      assert (x = y) by (apply ole_antisym; [eapply (Hone l l'); eauto|eapply (Hone l' l); eauto]). subst y. rewrite P, P'. constructor. apply IH.
      + apply Permutation_length in P. cbn [length] in P. lia.
      + apply Permutation_length in P'. cbn [length] in P'. lia.
      + intros t. specialize (H t). rewrite (above_perm t P), (above_perm t P'), !above_cons in H. lia. }
  apply (Hs (length l')); auto.
Qed.
