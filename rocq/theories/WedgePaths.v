(** Path homology of a filtered digraph made of two parts that share one vertex. *)
From Coq Require Import Lia.
From Verif Require Import Base Fields FieldsFacts Spec LinAlg Persistence GrpphCells SpecGrpph SpecPath PathBasis PathBetti Weighted SplitBetti.
Set Implicit Arguments.

(** ** Direct sums up to boundaries: a cycle splits after adding a boundary *)
Section Split.
  Context {K : coeffT} {X : Type}.
  Add Field KFSplitW : (F_field K).
  Notation chain := (X -> option K).
  Variables (cyc bnd cyc1 bnd1 cyc2 bnd2 : chain -> Prop) (q crs : X -> bool).
  Hypothesis C0 : forall e, cyc e -> exists e', bnd (fun x => fsub (e x) (e' x)) /\ cyc1 (restrict q e') /\ cyc2 (restrict (fun x => negb (q x)) e').
  Hypothesis C1 : forall e, cyc1 e -> cyc e /\ forall x, q x = false -> e x = f0.
  Hypothesis C2 : forall e, cyc2 e -> cyc e /\ (forall x, q x = true -> e x = f0) /\ forall x, crs x = true -> e x = f0.
  Hypothesis Hcrs : forall x, crs x = true -> q x = false.
  Hypothesis B0 : forall e, bnd e -> (forall x, crs x = true -> e x = f0) -> bnd1 (restrict q e) /\ bnd2 (restrict (fun x => negb (q x)) e).
  Hypothesis B1 : forall e, bnd1 e -> bnd e.
  Hypothesis B2 : forall e, bnd2 e -> bnd e.
  Hypothesis Badd : forall e1 e2, bnd e1 -> bnd e2 -> bnd (fun x => fadd (e1 x) (e2 x)).
  Hypothesis X0 : extensional bnd.
  Hypothesis X1 : extensional bnd1.
  Hypothesis X2 : extensional bnd2.

  Lemma gbetti_wedge k1 k2 : gbetti cyc1 bnd1 k1 -> gbetti cyc2 bnd2 k2 -> gbetti cyc bnd (k1 + k2).
  Proof.
    intros (I1 & l1 & Z1 & A1 & A2 & A3 & A4 & A5) (I2 & l2 & Z2 & D1 & D2 & D3 & D4 & D5).
    set (Z := fun i : sum_ord I1 I2 => match i with inl i => Z1 i | inr j => Z2 j end).
    set (l := map inl l1 ++ map inr l2 : list (sum_ord I1 I2)).
    assert (Hs : forall (a : vec K (sum_ord I1 I2)) x, vsum l (fun b => fmul (a b) (Z b x)) =
      fadd (vsum l1 (fun b => fmul (a (inl b : sum_ord I1 I2)) (Z1 b x))) (vsum l2 (fun b => fmul (a (inr b : sum_ord I1 I2)) (Z2 b x)))).
    { intros a x. unfold l. rewrite vsum_app. f_equal; [exact (vsum_map l1 (inl : I1 -> sum_ord I1 I2) (fun b => fmul (a b) (Z b x)))|exact (vsum_map l2 (inr : I2 -> sum_ord I1 I2) (fun b => fmul (a b) (Z b x)))]. }
    assert (S1 : forall (a : vec K I1) x, q x = false -> vsum l1 (fun b => fmul (a b) (Z1 b x)) = f0) by (intros a x Hx; apply vsum_0; intros b Hb; rewrite (proj2 (C1 (A3 b Hb)) x Hx); ring).
    assert (S2 : forall (a : vec K I2) x, q x = true -> vsum l2 (fun b => fmul (a b) (Z2 b x)) = f0) by (intros a x Hx; apply vsum_0; intros b Hb; rewrite (proj1 (proj2 (C2 (D3 b Hb))) x Hx); ring).
    assert (S3 : forall (a : vec K I2) x, crs x = true -> vsum l2 (fun b => fmul (a b) (Z2 b x)) = f0) by (intros a x Hx; apply vsum_0; intros b Hb; rewrite (proj2 (proj2 (C2 (D3 b Hb))) x Hx); ring).
    exists (sum_ord I1 I2), l, Z. split; [|split; [|split; [|split]]].
    - unfold l. apply nodup_app_intro; [apply FinFun.Injective_map_NoDup; auto; intros a b [= H]; exact H|apply FinFun.Injective_map_NoDup; auto; intros a b [= H]; exact H|].
      intros x H1 H2. apply in_map_iff in H1, H2. destruct H1 as (a & <- & _), H2 as (b & Hb & _). discriminate.
    - unfold l. rewrite app_length, !map_length. lia.
    - intros b Hb. unfold l in Hb. apply in_app_iff in Hb. destruct Hb as [Hb|Hb]; apply in_map_iff in Hb; destruct Hb as (i & <- & Hi); cbn [Z]; [apply C1; auto|apply C2; auto].
    - intros e He. destruct (C0 He) as (e' & E0 & E1 & E2). destruct (A4 _ E1) as (a1 & H1). destruct (D4 _ E2) as (a2 & H2).
      exists (fun i : sum_ord I1 I2 => match i with inl i => a1 i | inr j => a2 j end). eapply X0; [|exact (Badd E0 (Badd (B1 H1) (B2 H2)))]. intros x. cbv beta. rewrite Hs. cbv beta iota. unfold restrict. destruct (q x) eqn:Eq; cbn [negb]; [rewrite (S2 a2 x Eq)|rewrite (S1 a1 x Eq)]; ring.
    - intros a Ha. destruct (B0 Ha) as [H1 H2]; [intros x Hx; rewrite Hs, (S3 _ x Hx), (S1 _ x (Hcrs Hx)); ring|].
      assert (G1 : forall b, In b l1 -> a (inl b : sum_ord I1 I2) = f0).
      { apply (A5 (fun b => a (inl b : sum_ord I1 I2))). eapply X1; [|exact H1]. intros x. unfold restrict. destruct (q x) eqn:Eq; [rewrite Hs, S2 by exact Eq; ring|]. symmetry. now apply S1. }
      assert (G2 : forall b, In b l2 -> a (inr b : sum_ord I1 I2) = f0).
      { apply (D5 (fun b => a (inr b : sum_ord I1 I2))). eapply X2; [|exact H2]. intros x. unfold restrict. destruct (q x) eqn:Eq; cbn [negb]; [symmetry; now apply S2|]. rewrite Hs, S1 by exact Eq. ring. }
      intros b Hb. unfold l in Hb. apply in_app_iff in Hb. destruct Hb as [Hb|Hb]; apply in_map_iff in Hb; destruct Hb as (i & <- & Hi); auto.
  Qed.
End Split.

(** ** Collapsing one part to the shared vertex *)
Section Push.
  Context {K : coeffT} {F : ordT}.
  Add Field KFPush : (F_field K).
  Variables (n : nat) (time time1 : nat -> nat -> option F) (p : nat -> bool) (v : nat).
  Definition collapse (x : nat) : nat := if p x then x else v.
  Notation r := collapse.
  Hypothesis Hv : v < n.
  Hypothesis Hpv : p v = true.
  Hypothesis Hloop : forall x, time x x = None.
  Hypothesis Hlt : forall x y f, time x y = Some f -> x < n /\ y < n.
  Hypothesis Ht1 : forall x y, time1 x y = if p x && p y then time x y else None.
  Hypothesis HR : forall t x y, edge_at time t x y -> r x <> r y -> edge_at time1 t (r x) (r y).

  Lemma collapse_lt x : x < n -> r x < n.
  Proof. unfold collapse. destruct (p x); auto. Qed.
  Lemma edge_at_part t x y : edge_at time1 t x y <-> edge_at time t x y /\ p x = true /\ p y = true.
  Proof.
    unfold edge_at. split.
    - intros (f & Hf & Hle). rewrite Ht1 in Hf. destruct (p x), (p y); try discriminate. split; eauto.
    - intros [(f & Hf & Hle) [Hx Hy]]. exists f. rewrite Ht1, Hx, Hy. auto.
  Qed.
  Definition L3 : list (nat * (nat * nat)) := list_prod (seq 0 n) (list_prod (seq 0 n) (seq 0 n)).
  Definition r3 (i : nat * (nat * nat)) : nat * (nat * nat) := (r (fst i), (r (fst (snd i)), r (snd (snd i)))).
  Definition at3 (u : path_chain (K:=K)) (i : nat * (nat * nat)) : option K := u (fst i) (fst (snd i)) (snd (snd i)).
  Lemma eq3 (i j : nat * (nat * nat)) : {i = j} + {i <> j}.
  Proof. repeat decide equality. Qed.
  Lemma L3_nodup : NoDup L3.
  Proof. apply nodup_prod; [apply seq_NoDup|apply nodup_prod; apply seq_NoDup]. Qed.
  Lemma L3_in a b c : In (a, (b, c)) L3 <-> a < n /\ b < n /\ c < n.
  Proof. clear. unfold L3. rewrite in_prod_iff, in_prod_iff, !in_seq. lia. Qed.
  Lemma r3_in i : In i L3 -> In (r3 i) L3.
  Proof. destruct i as [a [b c]]. unfold r3. cbn [fst snd]. rewrite !L3_in. intros (A & B & C). repeat split; now apply collapse_lt. Qed.
  Lemma path_bdry_3 (u : path_chain (K:=K)) x y : path_bdry n u x y = vsum L3 (fun i => fmul (at3 u i) (at3 (fun a b c => path_boundary a b c x y) i)).
  Proof.
    unfold path_bdry, L3, at3. rewrite <- (vsum_prod (seq 0 n) (list_prod (seq 0 n) (seq 0 n)) (fun a j => fmul (u a (fst j) (snd j)) (path_boundary a (fst j) (snd j) x y))).
    apply vsum_ext. intros a _. now rewrite <- (vsum_prod (seq 0 n) (seq 0 n) (fun b c => fmul (u a b c) (path_boundary a b c x y))).
  Qed.
  Definition regular (i : nat * (nat * nat)) : bool := negb (fst i =? fst (snd i)) && negb (fst (snd i) =? snd (snd i)).
  (** the image of a chain of paths; degenerate paths vanish *)
  Definition push (u : path_chain (K:=K)) : path_chain (K:=K) := fun a b c =>
    if regular (a, (b, c)) then vsum L3 (fun i => if eq3 (r3 i) (a, (b, c)) then at3 u i else f0) else f0.
  Lemma push_sum u (g : nat * (nat * nat) -> option K) : vsum L3 (fun j => fmul (at3 (push u) j) (g j)) = vsum L3 (fun i => fmul (at3 u i) (if regular (r3 i) then g (r3 i) else f0)).
  Proof.
    transitivity (vsum L3 (fun j => vsum L3 (fun i => if eq3 (r3 i) j then fmul (at3 u i) (if regular j then g j else f0) else f0))).
    - apply vsum_ext. intros [a [b c]] _. unfold at3 at 1, push. cbn [fst snd]. destruct (regular (a, (b, c))).
      + transitivity (vsum L3 (fun i => fmul (g (a, (b, c))) (if eq3 (r3 i) (a, (b, c)) then at3 u i else f0))); [rewrite vsum_mul_l; ring|]. apply vsum_ext. intros i _. destruct (eq3 (r3 i) (a, (b, c))); ring.
      + rewrite vsum_0; [ring|]. intros i _. destruct (eq3 (r3 i) (a, (b, c))); ring.
    - rewrite vsum_swap. apply vsum_ext. intros i Hi. rewrite (@vsum_single K _ L3 _ (r3 i)); [|apply L3_nodup|now apply r3_in|].
      + now destruct (eq3 (r3 i) (r3 i)).
      + intros j _ Hj. destruct (eq3 (r3 i) j); [congruence|reflexivity].
  Qed.
  Lemma vsum_minus {A} (L : list A) (f g : A -> option K) : fsub (vsum L f) (vsum L g) = vsum L (fun a => fsub (f a) (g a)).
  Proof. induction L as [|a L IH]; cbn [vsum]; [ring|]. rewrite <- IH. ring. Qed.
  Lemma vsum_nz' {A} (L : list A) (f : A -> option K) : vsum L f <> f0 -> exists x, In x L /\ f x <> f0.
  Proof. intros H. apply (@vsum_nz K A L (fun _ => f1) f). intros E. apply H. rewrite <- E. apply vsum_ext. intros; ring. Qed.

  (** what is left of a chain of edges that never joins the two parts *)
  Definition inside (e : edge_chain (K:=K)) : edge_chain (K:=K) := fun x y => if p x && p y then e x y else f0.

  Definition L2 : list (nat * nat) := list_prod (seq 0 n) (seq 0 n).
  Definition push_edge (e : edge_chain (K:=K)) : edge_chain (K:=K) := fun x y =>
    vsum L2 (fun j => fmul (e (fst j) (snd j)) (if x =? y then f0 else delta ((r (fst j) =? x) && (r (snd j) =? y)))).
  Lemma pb_push a b c x y : a < n -> b < n -> c < n -> a <> b -> b <> c ->
    vsum L2 (fun j => fmul (path_boundary (K:=K) a b c (fst j) (snd j)) (if x =? y then f0 else delta ((r (fst j) =? x) && (r (snd j) =? y)))) =
    if regular (r a, (r b, r c)) then path_boundary (r a) (r b) (r c) x y else f0.
  Proof.
    intros Ha Hb Hc Hab Hbc.
    assert (Hd : forall s t, s < n -> t < n -> vsum L2 (fun j => fmul (delta (K:=K) ((s =? fst j) && (t =? snd j))) (if x =? y then f0 else delta ((r (fst j) =? x) && (r (snd j) =? y)))) = if x =? y then f0 else delta ((r s =? x) && (r t =? y))).
    { intros s t Hs Ht. rewrite (@vsum_single K _ L2 _ (s, t)).
      - cbn [fst snd]. rewrite !Nat.eqb_refl. cbn [andb delta]. ring.
      - apply nodup_prod; apply seq_NoDup.
      - apply in_prod_iff. rewrite !in_seq. lia.
      - intros [s' t'] _ Hne. cbn [fst snd]. destruct (Nat.eqb_spec s s') as [->|], (Nat.eqb_spec t t') as [->|]; try congruence; cbn [andb delta]; ring. }
    transitivity (fadd (fsub (if x =? y then f0 else delta (K:=K) ((r b =? x) && (r c =? y))) (if a =? c then f0 else if x =? y then f0 else delta ((r a =? x) && (r c =? y)))) (if x =? y then f0 else delta ((r a =? x) && (r b =? y)))).
    - rewrite <- (Hd b c), <- (Hd a b) by auto. destruct (Nat.eqb_spec a c) as [->|Hac].
      + rewrite <- (vsum_0 L2 (fun _ => f0 : option K)) at 1 by auto. unfold path_boundary. rewrite Nat.eqb_refl.
        transitivity (fadd (vsum L2 (fun j => fmul (delta (K:=K) ((b =? fst j) && (c =? snd j))) (if x =? y then f0 else delta ((r (fst j) =? x) && (r (snd j) =? y))))) (vsum L2 (fun j => fmul (delta (K:=K) ((c =? fst j) && (b =? snd j))) (if x =? y then f0 else delta ((r (fst j) =? x) && (r (snd j) =? y)))))); [rewrite <- vsum_add; apply vsum_ext; intros; ring|].
        rewrite (vsum_0 L2 (fun _ => f0 : option K)) by auto. ring.
      + rewrite <- (Hd a c) by auto. unfold path_boundary. destruct (Nat.eqb_spec a c); [congruence|].
        rewrite vsum_minus, <- vsum_add. apply vsum_ext. intros; ring.
    - unfold regular. cbn [fst snd]. unfold path_boundary.
      destruct (Nat.eqb_spec x y) as [->|Hxy].
      + destruct (Nat.eqb_spec (r a) (r b)); cbn [negb andb]; [destruct (a =? c); ring|]. destruct (Nat.eqb_spec (r b) (r c)); cbn [negb]; [destruct (a =? c); ring|].
        destruct (Nat.eqb_spec (r a) (r c)), (a =? c), (Nat.eqb_spec (r b) y), (Nat.eqb_spec (r c) y), (Nat.eqb_spec (r a) y); try congruence; cbn [andb delta]; ring.
      + destruct (Nat.eqb_spec a c) as [<-|Hac].
        * destruct (Nat.eqb_spec (r a) (r b)) as [E|]; cbn [negb andb].
          -- rewrite E. destruct (Nat.eqb_spec (r b) x), (Nat.eqb_spec (r b) y); try congruence; cbn [andb delta]; ring.
          -- destruct (Nat.eqb_spec (r b) (r a)); [congruence|]. cbn [negb]. now rewrite Nat.eqb_refl.
        * destruct (Nat.eqb_spec (r a) (r b)) as [E|]; cbn [negb andb].
          -- rewrite E. destruct (Nat.eqb_spec (r b) x), (Nat.eqb_spec (r b) y); try congruence; cbn [andb delta]; ring.
          -- destruct (Nat.eqb_spec (r b) (r c)) as [E|]; cbn [negb].
             ++ rewrite E. destruct (Nat.eqb_spec (r c) x), (Nat.eqb_spec (r c) y); try congruence; cbn [andb delta]; ring.
             ++ destruct (Nat.eqb_spec (r a) (r c)) as [E|]; auto. rewrite E. destruct (Nat.eqb_spec (r c) x), (Nat.eqb_spec (r c) y); try congruence; cbn [andb delta]; ring.
  Qed.
  Lemma path_bdry_push t u x y : (forall a b c, u a b c <> f0 -> edge_at time t a b /\ edge_at time t b c) -> path_bdry n (push u) x y = push_edge (path_bdry n u) x y.
  Proof.
    intros Hu. rewrite path_bdry_3, push_sum. unfold push_edge.
    transitivity (vsum L2 (fun j => vsum L3 (fun i => fmul (at3 u i) (fmul (at3 (fun a b c => path_boundary a b c (fst j) (snd j)) i) (if x =? y then f0 else delta ((r (fst j) =? x) && (r (snd j) =? y))))))).
    - rewrite vsum_swap. apply vsum_ext. intros [a [b c]] Hi. apply L3_in in Hi. destruct Hi as (A & B & C). unfold at3. cbn [fst snd]. unfold r3. cbn [fst snd].
      rewrite vsum_mul_l. destruct (fscalar_dec (u a b c)) as [->|Hn]; [ring|]. f_equal. symmetry. destruct (Hu a b c Hn) as [(f & F1 & _) (g & G1 & _)].
      apply pb_push; auto; intros ->; rewrite Hloop in *; discriminate.
    - apply vsum_ext. intros j _. rewrite path_bdry_3. rewrite (@vsum_ext K _ L3 _ (fun i => fmul (if x =? y then f0 else delta ((r (fst j) =? x) && (r (snd j) =? y))) (fmul (at3 u i) (at3 (fun a b c => path_boundary a b c (fst j) (snd j)) i)))) by (intros; ring).
      rewrite vsum_mul_l. ring.
  Qed.
  Lemma push_inside (e : edge_chain (K:=K)) x y : (forall a b, e a b <> f0 -> a < n /\ b < n /\ a <> b) -> (forall a b, e a b <> f0 -> p a = true -> p b = false -> a = v) -> (forall a b, e a b <> f0 -> p a = false -> p b = true -> b = v) ->
    push_edge e x y = inside e x y.
  Proof.
    intros H1 H2 H3. unfold push_edge, inside. destruct (Nat.eqb_spec x y) as [->|Hxy].
    { transitivity (f0 : option K); [apply vsum_0; intros; ring|]. destruct (p y && p y); auto. symmetry. destruct (fscalar_dec (e y y)) as [|Hn]; auto. apply H1 in Hn. tauto. }
    assert (Hz : forall a b, (a, b) <> (x, y) -> fmul (e a b) (delta (K:=K) ((r a =? x) && (r b =? y))) = f0).
    { intros a b Hne. destruct (fscalar_dec (e a b)) as [->|Hn]; [ring|]. destruct (Nat.eqb_spec (r a) x) as [<-|], (Nat.eqb_spec (r b) y) as [<-|]; cbn [andb delta]; try ring. exfalso.
      unfold collapse in *. destruct (p a) eqn:Ea, (p b) eqn:Eb.
      - congruence.
      - apply Hxy. exact (H2 a b Hn Ea Eb).
      - apply Hxy. symmetry. exact (H3 a b Hn Ea Eb).
      - congruence. }
    destruct (fscalar_dec (e x y)) as [E0|Hn].
    - rewrite E0. transitivity (f0 : option K); [|now destruct (p x && p y)]. apply vsum_0. intros [a b] _. cbn [fst snd].
      destruct (Nat.eq_dec a x) as [->|]; [destruct (Nat.eq_dec b y) as [->|]; [rewrite E0; ring|]|]; apply Hz; congruence.
    - pose proof (H1 _ _ Hn) as (A & B & _). rewrite (@vsum_single K _ L2 _ (x, y)).
      + cbn [fst snd]. unfold collapse. destruct (p x) eqn:Ex, (p y) eqn:Ey; cbn [andb].
        * rewrite !Nat.eqb_refl. cbn [andb delta]. ring.
        * rewrite Nat.eqb_refl. destruct (Nat.eqb_spec v y); [congruence|]. cbn [andb delta]. ring.
        * destruct (Nat.eqb_spec v x); [congruence|]. cbn [andb delta]. ring.
        * destruct (Nat.eqb_spec v x); [congruence|]. cbn [andb delta]. ring.
      + apply nodup_prod; apply seq_NoDup.
      + apply in_prod_iff. rewrite !in_seq. lia.
      + intros [a b] _ Hne. cbn [fst snd]. now apply Hz.
  Qed.
  Lemma boundary_inside t (e : edge_chain (K:=K)) : boundary_1 time n t e ->
    (forall a b, e a b <> f0 -> p a = true -> p b = false -> a = v) -> (forall a b, e a b <> f0 -> p a = false -> p b = true -> b = v) -> boundary_1 time1 n t (inside e).
  Proof.
    intros (u & [U1 U2] & He) H2 H3.
    assert (Hin : forall x y, inside e x y = path_bdry n (push u) x y).
    { intros x y. rewrite (path_bdry_push u x y U1), <- push_inside; auto.
      - unfold push_edge. apply vsum_ext. intros j _. now rewrite He.
      - intros a b Hn. rewrite He in Hn. apply U2 in Hn. destruct Hn as (f & Hf & _). pose proof (Hlt Hf) as [A B]. repeat split; auto. intros ->. rewrite Hloop in Hf. discriminate. }
    exists (push u). split; [|exact Hin]. split.
    - intros a b c Hn. unfold push in Hn. destruct (regular (a, (b, c))) eqn:Er; [|congruence]. unfold regular in Er. cbn [fst snd] in Er. apply andb_true_iff in Er. rewrite !negb_true_iff, !Nat.eqb_neq in Er.
      apply vsum_nz' in Hn. destruct Hn as ([a' [b' c']] & _ & Hn). destruct (eq3 (r3 (a', (b', c'))) (a, (b, c))) as [E|]; [|congruence]. unfold r3 in E. cbn [fst snd] in E. injection E as <- <- <-.
      unfold at3 in Hn. cbn [fst snd] in Hn. destruct (U1 _ _ _ Hn) as [A B]. destruct Er. split; now apply HR.
    - intros x y Hn. rewrite <- Hin in Hn. unfold inside in Hn. destruct (p x) eqn:Ex, (p y) eqn:Ey; cbn [andb] in Hn; try congruence. apply edge_at_part. split; auto. apply U2. now rewrite <- He.
  Qed.
  Lemma boundary_part t (e : edge_chain (K:=K)) : boundary_1 time1 n t e -> boundary_1 time n t e.
  Proof.
    intros (u & [H1 H2] & He). exists u. split; auto. split.
    - intros a b c Hn. destruct (H1 _ _ _ Hn) as [A B]. apply edge_at_part in A, B. tauto.
    - intros x y Hn. apply H2, edge_at_part in Hn. tauto.
  Qed.
End Push.

(** ** The two parts together *)
Section Wedge.
  Context {K : coeffT} {F : ordT}.
  Add Field KFWedge : (F_field K).
  Variables (n : nat) (z inf : F) (time time1 time2 : nat -> nat -> option F) (E E1 E2 : list (nat * nat)) (p1 p2 : nat -> bool) (v : nat).
  Hypothesis Hv : v < n.
  Hypothesis Hp1 : p1 v = true.
  Hypothesis Hp2 : p2 v = true.
  Hypothesis Hcov : forall x, p1 x = true \/ p2 x = true.
  Hypothesis Hmeet : forall x, p1 x = true -> p2 x = true -> x = v.
  Hypothesis HG : filtered_digraph time n z inf.
  Hypothesis Ht1 : forall x y, time1 x y = if p1 x && p1 y then time x y else None.
  Hypothesis Ht2 : forall x y, time2 x y = if p2 x && p2 y then time x y else None.
  Hypothesis HR1 : forall t x y, edge_at time t x y -> collapse p1 v x <> collapse p1 v y -> edge_at time1 t (collapse p1 v x) (collapse p1 v y).
  Hypothesis HR2 : forall t x y, edge_at time t x y -> collapse p2 v x <> collapse p2 v y -> edge_at time2 t (collapse p2 v x) (collapse p2 v y).
  Hypothesis HE1 : forall x y, In (x, y) E1 -> In (x, y) E /\ p1 x = true /\ p1 y = true.
  Hypothesis HE2 : forall x y, In (x, y) E2 -> In (x, y) E /\ p2 x = true /\ p2 y = true.
  Hypothesis HE12 : forall x y, In (x, y) E -> In (x, y) E1 \/ In (x, y) E2.
  Hypothesis Hv2 : ~ In (v, v) E2.
  Hypothesis HE : forall x y, In (x, y) E -> x < n /\ y < n.
  Notation ch := (edge_chain (K:=K)).
  Let Hloop : forall x, time x x = None := proj1 HG.
  Let Hlt : forall x y f, time x y = Some f -> x < n /\ y < n.
  Proof. intros x y f H. apply HG in H. tauto. Qed.

  Definition crs (x y : nat) : bool := negb (p1 x && p1 y) && negb (p2 x && p2 y).
  Lemma crs_cases x y : crs x y = true -> (p1 x = true /\ p2 x = false /\ p1 y = false /\ p2 y = true) \/ (p1 x = false /\ p2 x = true /\ p1 y = true /\ p2 y = false).
  Proof. unfold crs. destruct (Hcov x) as [H|H], (Hcov y) as [H'|H']; rewrite H, H'; destruct (p1 x), (p2 x), (p1 y), (p2 y); cbn [andb negb]; intros; try discriminate; auto. Qed.
  Lemma edge_grounded t x y : edge_at time t x y -> grounded_edge_at time z E t x y.
  Proof.
    intros H. destruct (in_dec (fun a b : nat * nat => ltac:(repeat decide equality) : {a = b} + {a <> b}) (x, y) E) as [Hi|Hi]; [left|right; auto].
    split; auto. destruct H as (f & Hf & Hle). apply HG in Hf. eapply ole_trans; [|exact Hle]. tauto.
  Qed.
  Lemma edge_lt t x y : edge_at time t x y -> x < n /\ y < n /\ x <> y.
  Proof. intros (f & Hf & _). pose proof (Hlt Hf). repeat split; try tauto. intros ->. rewrite Hloop in Hf. discriminate. Qed.
  Lemma grounded_1 t x y : grounded_edge_at time1 z E1 t x y -> grounded_edge_at time z E t x y /\ p1 x = true /\ p1 y = true.
  Proof.
    intros [[H Hz]|[_ H]].
    - apply HE1 in H. split; [left|]; tauto.
    - apply (@edge_at_part F time time1 p1 Ht1) in H. split; [|tauto]. apply edge_grounded. tauto.
  Qed.
  Lemma grounded_2 t x y : grounded_edge_at time2 z E2 t x y -> grounded_edge_at time z E t x y /\ p2 x = true /\ p2 y = true /\ p1 x && p1 y = false.
  Proof.
    intros H. assert (G : grounded_edge_at time z E t x y /\ p2 x = true /\ p2 y = true).
    { destruct H as [[H Hz]|[_ H]]; [apply HE2 in H; split; [left|]; tauto|]. apply (@edge_at_part F time time2 p2 Ht2) in H. split; [|tauto]. apply edge_grounded. tauto. }
    destruct G as (G1 & G2 & G3). repeat split; auto. destruct (p1 x) eqn:X, (p1 y) eqn:Y; auto. exfalso. rewrite (Hmeet X G2), (Hmeet Y G3) in H.
    destruct H as [[H _]|[_ H]]; [tauto|]. apply (@edge_at_part F time time2 p2 Ht2) in H. destruct H as [H _]. apply edge_lt in H. tauto.
  Qed.
  Lemma grounded_split t x y : grounded_edge_at time z E t x y -> crs x y = false -> if p1 x && p1 y then grounded_edge_at time1 z E1 t x y else grounded_edge_at time2 z E2 t x y.
  Proof.
    intros H Hc. unfold crs in Hc. destruct (p1 x && p1 y) eqn:Eq; cbn [negb andb] in Hc.
    - apply andb_true_iff in Eq. destruct Eq as [X Y]. destruct H as [[H Hz]|[H1 H2]].
      + left. split; auto. destruct (HE12 _ _ H) as [|H2]; auto. exfalso. pose proof (HE2 _ _ H2) as (_ & A & B). rewrite (Hmeet X A), (Hmeet Y B) in H2. tauto.
      + right. split; [intros H; apply H1; now apply HE1 in H|]. apply (@edge_at_part F time time1 p1 Ht1). auto.
    - apply negb_false_iff, andb_true_iff in Hc. destruct Hc as [X Y]. destruct H as [[H Hz]|[H1 H2]].
      + left. split; auto. destruct (HE12 _ _ H) as [H2|]; auto. exfalso. apply HE1 in H2. destruct H2 as (_ & H3 & H2). rewrite H3, H2 in Eq. discriminate.
      + right. split; [intros H; apply H1; now apply HE2 in H|]. apply (@edge_at_part F time time2 p2 Ht2). auto.
  Qed.
  Lemma cross_edge t x y : grounded_edge_at time z E t x y -> crs x y = true -> edge_at time t x v /\ edge_at time t v y /\ edge_at time t x y.
  Proof.
    intros H Hc. assert (He : edge_at time t x y).
    { destruct H as [[H _]|[_ H]]; auto. exfalso. apply crs_cases in Hc. destruct (HE12 _ _ H) as [H'|H']; [apply HE1 in H'|apply HE2 in H']; destruct H' as (_ & A & B), Hc as [(? & ? & ? & ?)|(? & ? & ? & ?)]; congruence. }
    assert (G1 : forall a b, edge_at time1 t a b -> edge_at time t a b) by (intros a b G; apply (@edge_at_part F time time1 p1 Ht1) in G; tauto).
    assert (G2 : forall a b, edge_at time2 t a b -> edge_at time t a b) by (intros a b G; apply (@edge_at_part F time time2 p2 Ht2) in G; tauto).
    pose proof (HR1 He) as R1. pose proof (HR2 He) as R2. unfold collapse in R1, R2.
    apply crs_cases in Hc. destruct Hc as [(A & B & C & D)|(A & B & C & D)]; rewrite A, C in R1; rewrite B, D in R2; (split; [|split; auto]).
    - apply G1, R1. congruence.
    - apply G2, R2. congruence.
    - apply G2, R2. congruence.
    - apply G1, R1. congruence.
  Qed.
  (** the paths through the shared vertex below the edges from one part to the other *)
  Definition through (e : ch) : path_chain (K:=K) := fun a b c => if (b =? v) && crs a c then e a c else f0.
  Lemma through_edges t e a b c : edges_at time z E t e -> through e a b c <> f0 -> edge_at time t a b /\ edge_at time t b c /\ edge_at time t a c.
  Proof.
    intros He Hn. unfold through in Hn. destruct (Nat.eqb_spec b v) as [->|]; cbn [andb] in Hn; [|congruence]. destruct (crs a c) eqn:Ec; [|congruence]. now apply cross_edge; [apply He|].
  Qed.
  Lemma path_boundary_nz a b c x y : path_boundary (K:=K) a b c x y <> f0 -> (b = x /\ c = y) \/ (a = x /\ c = y) \/ (a = x /\ b = y).
  Proof.
    unfold path_boundary. destruct (Nat.eqb_spec a x), (Nat.eqb_spec b x), (Nat.eqb_spec c y), (Nat.eqb_spec b y); cbn [andb delta]; auto; intros H; exfalso; apply H; destruct (a =? c); ring.
  Qed.
  Lemma through_invariant t e : edges_at time z E t e -> invariant_2_paths time n t (through e).
  Proof.
    intros He. split; [intros a b c Hn; destruct (@through_edges t e a b c He Hn) as (A & B & _); auto|].
    intros x y Hn. rewrite path_bdry_3 in Hn. apply vsum_nz' in Hn. destruct Hn as ([a [b c]] & _ & Hn). unfold at3 in Hn. cbn [fst snd] in Hn.
    destruct (fscalar_dec (through e a b c)) as [E0|H1]; [exfalso; apply Hn; rewrite E0; ring|]. destruct (fscalar_dec (path_boundary (K:=K) a b c x y)) as [E0|H2]; [exfalso; apply Hn; rewrite E0; ring|].
    destruct (@through_edges t e a b c He H1) as (A & B & C). apply path_boundary_nz in H2. destruct H2 as [[<- <-]|[[<- <-]|[<- <-]]]; auto.
  Qed.
  Lemma through_cross (e : ch) x y : x < n -> y < n -> crs x y = true -> path_bdry n (through e) x y = fopp (e x y).
  Proof.
    intros Hx Hy Hc. pose proof (crs_cases _ _ Hc) as Hcases. assert (Hxy : x <> y) by (intros ->; destruct Hcases as [(? & ? & ? & ?)|(? & ? & ? & ?)]; congruence).
    assert (Hxv : x <> v) by (intros ->; destruct Hcases as [(? & ? & ? & ?)|(? & ? & ? & ?)]; congruence). assert (Hyv : y <> v) by (intros ->; destruct Hcases as [(? & ? & ? & ?)|(? & ? & ? & ?)]; congruence).
    rewrite path_bdry_3, (@vsum_single K _ (L3 n) _ (x, (v, y))); [|apply L3_nodup|apply (proj2 (L3_in n x v y)); auto|].
    - unfold at3. cbn [fst snd]. unfold through, path_boundary. rewrite Hc, !Nat.eqb_refl. destruct (Nat.eqb_spec x y); [congruence|]. destruct (Nat.eqb_spec v x); [congruence|]. destruct (Nat.eqb_spec v y); [congruence|]. cbn [andb delta]. ring.
    - intros [a [b c]] _ Hne. unfold at3. cbn [fst snd]. unfold through. destruct (Nat.eqb_spec b v) as [->|]; cbn [andb]; [|ring]. destruct (crs a c); [|ring].
      destruct (fscalar_dec (path_boundary (K:=K) a v c x y)) as [->|Hn]; [ring|]. apply path_boundary_nz in Hn. destruct Hn as [[? ?]|[[? ?]|[? ?]]]; congruence.
  Qed.
  Lemma total_bdry (e : ch) : vsum (seq 0 n) (fun w => edge_bdry n e w) = f0.
  Proof.
    unfold edge_bdry. rewrite vsum_swap. apply vsum_0. intros x Hx. rewrite vsum_swap. apply vsum_0. intros y Hy. rewrite vsum_mul_l, <- vsum_minus.
    assert (Hd : forall u, In u (seq 0 n) -> vsum (seq 0 n) (fun w => delta (K:=K) (u =? w)) = f1).
    { intros u Hu. rewrite (@vsum_single K _ (seq 0 n) _ u); [now rewrite Nat.eqb_refl|apply seq_NoDup|auto|]. intros w _ Hne. destruct (Nat.eqb_spec u w); [congruence|reflexivity]. }
    rewrite !Hd by auto. ring.
  Qed.
  Lemma inside_cycle (e : ch) : (forall x y, crs x y = true -> e x y = f0) -> (forall w, edge_bdry n e w = f0) -> forall w, edge_bdry n (inside p1 e) w = f0.
  Proof.
    intros He Hb.
    assert (Hw : forall w, w <> v -> edge_bdry n (inside p1 e) w = f0).
    { intros w Hw. destruct (p1 w) eqn:Pw.
      - rewrite <- (Hb w). unfold edge_bdry. apply vsum_ext. intros x _. apply vsum_ext. intros y _. unfold inside. destruct (p1 x && p1 y) eqn:Eq; auto.
        destruct (Nat.eqb_spec y w) as [->|Hy].
        + rewrite (He x w); [ring|]. unfold crs. rewrite Eq. destruct (p2 w) eqn:P2; [exfalso; auto|]. now rewrite andb_false_r.
        + destruct (Nat.eqb_spec x w) as [->|Hx]; [|cbn [delta]; ring]. rewrite (He w y); [ring|]. unfold crs. rewrite Eq. destruct (p2 w) eqn:P2; [exfalso; auto|reflexivity].
      - unfold edge_bdry. apply vsum_0. intros x _. apply vsum_0. intros y _. unfold inside. destruct (p1 x) eqn:X, (p1 y) eqn:Y; cbn [andb]; try ring.
        destruct (Nat.eqb_spec y w); [congruence|]. destruct (Nat.eqb_spec x w); [congruence|]. cbn [delta]. ring. }
    intros w. destruct (Nat.eq_dec w v) as [->|]; [|auto]. rewrite <- (total_bdry (inside p1 e)). symmetry. apply vsum_single; [apply seq_NoDup|apply in_seq; lia|auto].
  Qed.
  Lemma invariant_later s t (u : path_chain (K:=K)) : ole s t -> invariant_2_paths time n s u -> invariant_2_paths time n t u.
  Proof.
    intros Hst [H1 H2]. assert (Hm : forall x y, edge_at time s x y -> edge_at time t x y) by (intros x y (f & Hf & Hle); exists f; split; auto; eapply ole_trans; eauto).
    split; [intros a b c Hn; destruct (H1 _ _ _ Hn); auto|auto].
  Qed.
  Lemma cycle_wedge s t (e : ch) : ole s t -> cycle_1 time n z E s e -> exists e' : ch, boundary_1 time n t (fun x y => fsub (e x y) (e' x y)) /\
    cycle_1 time1 n z E1 s (inside p1 e') /\ cycle_1 time2 n z E2 s (fun x y => if p1 x && p1 y then f0 else e' x y).
  Proof.
    intros Hst [He Hb]. pose proof (through_invariant He) as Hi. set (e' := fun x y => fadd (e x y) (fmul f1 (path_bdry n (through e) x y))).
    assert (B1 : boundary_1 time n s (path_bdry n (through e))) by (exists (through e); auto).
    assert (H1 : edges_at time z E s e') by (intros x y Hn; unfold e' in Hn; apply lin_nz in Hn; destruct Hn as [Hn|Hn]; [now apply He|apply edge_grounded; now apply Hi]).
    assert (H2 : forall w, edge_bdry n e' w = f0) by (intros w; unfold e'; rewrite edge_bdry_lin, Hb, (B1_cycle HG B1); ring).
    assert (H3 : forall x y, crs x y = true -> e' x y = f0).
    { intros x y Hc. destruct (fscalar_dec (e' x y)) as [|Hn]; auto. exfalso. pose proof (cross_edge (H1 _ _ Hn) Hc) as (_ & _ & Hxy). apply edge_lt in Hxy. apply Hn. unfold e'. rewrite through_cross by tauto. ring. }
    pose proof (inside_cycle _ H3 H2) as H4. exists e'. split; [|split; split].
    - exists (fun a b c => fmul (fopp f1) (through e a b c)). assert (Hs : forall x y, path_bdry n (fun a b c => fmul (fopp f1) (through e a b c)) x y = fmul (fopp f1) (path_bdry n (through e) x y)) by (intros x y; rewrite !path_bdry_3, <- vsum_mul_l; apply vsum_ext; intros i _; unfold at3; ring).
      split; [|intros x y; rewrite Hs; unfold e'; ring]. apply (invariant_later Hst). destruct Hi as [I1 I2]. split; [intros a b c Hn; apply I1; intros E0; apply Hn; rewrite E0; ring|]. intros x y Hn. apply I2. intros E0. apply Hn. rewrite Hs, E0. ring.
    - intros x y Hn. unfold inside in Hn. destruct (p1 x && p1 y) eqn:Eq; [|congruence]. pose proof (grounded_split (H1 _ _ Hn)) as Hg. rewrite Eq in Hg. apply Hg. unfold crs. now rewrite Eq.
    - exact H4.
    - intros x y Hn. destruct (p1 x && p1 y) eqn:Eq; [congruence|]. pose proof (grounded_split (H1 _ _ Hn)) as Hg. rewrite Eq in Hg. apply Hg. destruct (crs x y) eqn:Ec; auto. exfalso. auto.
    - intros w. transitivity (edge_bdry n (fun x y => fadd (e' x y) (fmul (fopp f1) (inside p1 e' x y))) w); [apply edge_bdry_ext; intros x y; unfold inside; destruct (p1 x && p1 y); ring|].
      rewrite edge_bdry_lin, H2, H4. ring.
  Qed.
  Lemma boundary_wedge t (e : ch) : boundary_1 time n t e -> (forall x y, crs x y = true -> e x y = f0) ->
    boundary_1 time1 n t (inside p1 e) /\ boundary_1 (K:=K) time2 n t (fun x y => if p1 x && p1 y then f0 else e x y).
  Proof.
    intros Hb Hc. assert (Hl : e v v = f0).
    { destruct (fscalar_dec (e v v)) as [|Hn]; auto. destruct Hb as (u & [_ H2] & H3). rewrite H3 in Hn. apply H2, edge_lt in Hn. tauto. }
    assert (Hs : forall a b, e a b <> f0 -> (p1 a = true /\ p1 b = true) \/ (p2 a = true /\ p2 b = true)).
    { intros a b Hn. destruct (crs a b) eqn:Ec; [exfalso; auto|]. unfold crs in Ec. apply andb_false_iff in Ec. rewrite !negb_false_iff, !andb_true_iff in Ec. exact Ec. }
    split.
    - apply (@boundary_inside K F n time time1 p1 v Hv Hp1 Hloop Hlt Ht1 HR1 t e Hb).
      + intros a b Hn A B. destruct (Hs _ _ Hn) as [[? ?]|[? ?]]; [congruence|auto].
      + intros a b Hn A B. destruct (Hs _ _ Hn) as [[? ?]|[? ?]]; [congruence|auto].
    - eapply B1_ext; [|apply (@boundary_inside K F n time time2 p2 v Hv Hp2 Hloop Hlt Ht2 HR2 t e Hb)].
      + intros x y. unfold inside. destruct (p1 x && p1 y) eqn:E1', (p2 x && p2 y) eqn:E2'; auto.
        * apply andb_true_iff in E1', E2'. destruct E1' as [A B], E2' as [C D]. now rewrite (Hmeet A C), (Hmeet B D).
        * symmetry. apply Hc. unfold crs. now rewrite E1', E2'.
      + intros a b Hn A B. destruct (Hs _ _ Hn) as [[? ?]|[? ?]]; [auto|congruence].
      + intros a b Hn A B. destruct (Hs _ _ Hn) as [[? ?]|[? ?]]; [auto|congruence].
  Qed.

  Lemma betti_1_wedge s t k1 k2 : ole s t -> path_betti_1 (K:=K) time1 n z E1 s t k1 -> path_betti_1 (K:=K) time2 n z E2 s t k2 -> path_betti_1 (K:=K) time n z E s t (k1 + k2).
  Proof.
    intros Hst. set (cur := fun (e : nat * nat -> option K) x y => e (x, y)).
    assert (Hto : forall ti E0 k, path_betti_1 (K:=K) ti n z E0 s t k -> gbetti (fun e => cycle_1 ti n z E0 s (cur e)) (fun e => boundary_1 ti n t (cur e)) k).
    { intros ti E0 k (I & bars & Z & H1 & H2 & H3 & H4 & H5). exists I, bars, (fun b q => Z b (fst q) (snd q)). split; auto. split; auto. split; [exact H3|]. split; [|exact H5].
      intros e He. destruct (H4 (cur e) He) as (a & Ha). exists a. exact Ha. }
    intros G1 G2. apply Hto in G1, G2.
    assert (Hx : forall ti, extensional (fun e : nat * nat -> option K => boundary_1 ti n t (cur e))) by (intros ti e e' H; apply B1_ext; intros x y; apply H).
    assert (G : gbetti (fun e => cycle_1 time n z E s (cur e)) (fun e => boundary_1 time n t (cur e)) (k1 + k2)).
    { apply (@gbetti_wedge K (nat * nat) _ _ (fun e => cycle_1 time1 n z E1 s (cur e)) (fun e => boundary_1 time1 n t (cur e)) (fun e => cycle_1 time2 n z E2 s (cur e)) (fun e => boundary_1 time2 n t (cur e)) (fun q => p1 (fst q) && p1 (snd q)) (fun q => crs (fst q) (snd q))); auto.
      - intros e He. destruct (cycle_wedge Hst He) as (e' & A & B & C). exists (fun q => e' (fst q) (snd q)). split; [exact A|]. split; [exact B|].
        destruct C as [C1 C2]. assert (Hsame : forall x y, cur (restrict (fun q => negb (p1 (fst q) && p1 (snd q))) (fun q => e' (fst q) (snd q))) x y = (if p1 x && p1 y then f0 else e' x y)) by (intros x y; unfold cur, restrict; cbn [fst snd]; destruct (p1 x && p1 y); reflexivity).
        split; [intros x y Hn; apply C1; now rewrite <- Hsame|]. intros w. rewrite <- (C2 w). apply edge_bdry_ext. exact Hsame.
      - intros e [A B]. split; [split; auto; intros x y Hn; now apply grounded_1, A|]. intros [x y] Hq. cbn [fst snd] in Hq. destruct (fscalar_dec (e (x, y))) as [|Hn]; auto. apply A, grounded_1 in Hn. destruct Hn as (_ & H1 & H2). rewrite H1, H2 in Hq. discriminate.
      - intros e [A B]. split; [split; auto; intros x y Hn; now apply grounded_2, A|]. split.
        + intros [x y] Hq. cbn [fst snd] in Hq. destruct (fscalar_dec (e (x, y))) as [|Hn]; auto. apply A, grounded_2 in Hn. destruct Hn as (_ & _ & _ & H2). congruence.
        + intros [x y] Hq. cbn [fst snd] in Hq. destruct (fscalar_dec (e (x, y))) as [|Hn]; auto. apply A, grounded_2 in Hn. destruct Hn as (_ & H1 & H2 & _). unfold crs in Hq. rewrite H1, H2, andb_comm in Hq. discriminate.
      - intros [x y] H. cbn [fst snd] in *. unfold crs in H. now destruct (p1 x && p1 y).
      - intros e He Hc. destruct (boundary_wedge He) as [A B]; [intros x y H; exact (Hc (x, y) H)|]. split; [exact A|]. eapply B1_ext; [|exact B]. intros x y. unfold cur, restrict. cbn [fst snd]. destruct (p1 x && p1 y); reflexivity.
      - intros e. apply (@boundary_part K F n time time1 p1 Ht1).
      - intros e. apply (@boundary_part K F n time time2 p2 Ht2).
      - intros e1 e2 A B. eapply B1_ext; [|exact (B1_lin f1 A B)]. intros x y. unfold cur. cbv beta. ring. }
    destruct G as (I & bars & Z & H1 & H2 & H3 & H4 & H5). exists I, bars, (fun b x y => Z b (x, y)). split; auto. split; auto. split; [exact H3|]. split; [|exact H5].
    intros e He. destruct (H4 (fun q => e (fst q) (snd q)) He) as (a & Ha). exists a. exact Ha.
  Qed.
End Wedge.
