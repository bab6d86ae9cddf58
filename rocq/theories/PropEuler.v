(** C102: simplices at each level are counted by bars; the Euler characteristic. *)
From Verif Require Import Base Fields FieldsFacts Spec LinAlg Columns ColumnsFacts Matrices SpecMat MatricesFacts Reduction LoopProofs StandardProofs ReadOffProofs Graded StandardResults ClearingProofs PropMatrices PropStandard PropClearing Duality PropDuality Rips SpecRips RipsCode RipsFacts RipsBasis PropRips RipsComplex RipsCohomology PropRipsCohomology SpecPH Persistence RipsPersistence PropRipsPersistence PropRipsCli PropRipsHomology PropRipsCounts PropRipsCli Examples.
From Coq Require Import Permutation Lia.
Set Implicit Arguments.

(** ** Specification *)
(** [l] lists the codes of the simplices with [k + 1] vertices *)
Definition lists_dimension (n k : nat) (l : list N_ord) : Prop := NoDup l /\ forall c, In c l <-> exists s, simplex n s /\ length s = k + 1 /\ c = code n s.
(** how many elements of a list have a property *)
Definition count {A} (p : A -> bool) (l : list A) : nat := length (filter p l).
(** alternating counts: an element of dimension [q] counts for [(-1)^q] *)
Definition signed_count {A} (dim : A -> Z) (p : A -> bool) (l : list A) : Z :=
  fold_right (fun x s => if p x then ((if Z.even (dim x) then 1 else -1) + s)%Z else s) 0%Z l.

Lemma count_app {A} (p : A -> bool) l l' : count p (l ++ l') = count p l + count p l'.
Proof. unfold count. now rewrite filter_app, app_length. Qed.
Lemma count_map {A B} (p : B -> bool) (f : A -> B) l : count p (map f l) = count (fun x => p (f x)) l.
Proof. unfold count. induction l as [|x l IH]; auto. cbn [map filter]. destruct (p (f x)); cbn [length]; auto. Qed.
Lemma count_perm {A} (p : A -> bool) l l' : Permutation l l' -> count p l = count p l'.
Proof. unfold count. induction 1; cbn [filter]; auto; [destruct (p x); cbn [length]; auto|destruct (p x), (p y); auto|congruence]. Qed.
Lemma count_filter {A} (p q : A -> bool) l : count p (filter q l) = count (fun x => q x && p x) l.
Proof. unfold count. induction l as [|x l IH]; auto. cbn [filter]. destruct (q x); cbn [andb filter]; auto. destruct (p x); cbn [length]; auto. Qed.
Lemma count_ext {A} (p q : A -> bool) l : (forall x, In x l -> p x = q x) -> count p l = count q l.
Proof. unfold count. induction l as [|x l IH]; intros H; auto. cbn [filter]. rewrite (H x) by now left. assert (IH' := IH ltac:(intros; apply H; now right)). destruct (q x); cbn [length]; auto. Qed.
Lemma count_none {A} (p : A -> bool) l : (forall x, In x l -> p x = false) -> count p l = 0.
Proof. intros H. unfold count. induction l as [|x l IH]; auto. cbn [filter]. rewrite (H x) by now left. apply IH. intros; apply H; now right. Qed.
Lemma signed_app {A} (dim : A -> Z) p l l' : signed_count dim p (l ++ l') = (signed_count dim p l + signed_count dim p l')%Z.
Proof. induction l as [|x l IH]; [reflexivity|]. unfold signed_count in *. cbn [app fold_right]. rewrite IH. destruct (p x); lia. Qed.
Lemma signed_map {A B} (dim : B -> Z) p (f : A -> B) l : signed_count dim p (map f l) = signed_count (fun x => dim (f x)) (fun x => p (f x)) l.
Proof. induction l as [|x l IH]; [reflexivity|]. unfold signed_count in *. cbn [map fold_right]. now rewrite IH. Qed.
Lemma signed_perm {A} (dim : A -> Z) p l l' : Permutation l l' -> signed_count dim p l = signed_count dim p l'.
Proof. induction 1 as [|x l l' H IH|x y l|l l1 l2 H IH H' IH']; unfold signed_count in *; cbn [fold_right]; auto; [now rewrite IH|destruct (p x), (p y); lia|congruence]. Qed.

(** ** C102 *)
Theorem C102_level_counts :
  forall (HI : heaps) (K : coeffT) (F : ordT) (uw : N) (z : F) (d : list (list F)) (max_dim : nat),
  1 <= length d -> rips_matrix z d -> 1 <= max_dim -> codes_fit uw (length d) (max_dim + 2) ->
  forall (L : list N) (fuel : nat), covers_simplices (length d) (max_dim + 2) L -> length L < fuel ->
  exists rc dg, rips_cohomology HI (K:=K) fuel uw z d max_dim = Ok (rc, dg) /\
    forall (phi : N_ord -> F) (dim : N_ord -> Z), rips_filtration z d phi -> simplex_dim (length d) dim ->
    forall (k : nat) (l : list N_ord) (t : F), k <= max_dim -> lists_dimension (length d) k l ->
      count (fun c => oleb (phi c) t) l =
        count (fun c => (dim (unrev c) =? Z.of_nat k)%Z && oleb (phi (unrev c)) t) (essential dg) +
        count (fun p : rN * rN => (dim (unrev (snd p)) =? Z.of_nat k)%Z && oleb (phi (unrev (snd p))) t) (pairings dg) +
        count (fun p : rN * rN => (dim (unrev (snd p)) + 1 =? Z.of_nat k)%Z && oleb (phi (unrev (fst p))) t) (pairings dg).
Proof.
  intros HI K F uw z d m Hn Hd Hm Hfit L fuel HL Hfuel.
  destruct (@C44_cohomology_intrinsic HI K F uw z d m Hd Hm Hfit L fuel HL Hfuel) as (rc & dg & Erun & N1 & N2 & _).
  destruct (@C44_diagram_shape HI K F uw z d m Hd Hm Hfit L fuel HL Hfuel) as (rc' & dg' & E' & S1 & S2 & S3 & S4).
  rewrite Erun in E'. injection E' as <- <-. exists rc, dg. split; auto. intros phi dim Hphi Hdim k l t Hk [Hnd Hl].
  assert (S1' : forall i j, In (i, j) (pairings dg) -> exists s t, simplex (length d) s /\ simplex (length d) t /\ length s <= m + 1 /\ length t = length s + 1 /\ j = Reverse (code (length d) s) /\ i = Reverse (code (length d) t)).
  { intros i j H. destruct (S1 i j H) as (s & u & fs & ft & A & B & C & D & E & G & _). exists s, u. auto 9. }
  pose proof (@cells_split F z d m Hn Hm dg N1 S1' S2 S3 dim Hdim k Hk) as HP.
  assert (HPl : Permutation l (cells z d m k)).
  { apply NoDup_Permutation; auto; [now apply cells_nodup|]. intros c. rewrite Hl, cells_in by auto. reflexivity. }
  rewrite (count_perm _ HPl), <- (count_perm _ HP), count_app, count_map. unfold P at 1. rewrite count_filter.
  assert (H0 : simplex (length d) [0]) by (split; [discriminate|]; split; repeat constructor; lia).
  destruct k as [|k].
  - cbn [below]. assert (Ez : count (fun p : rN * rN => (dim (unrev (snd p)) + 1 =? Z.of_nat 0)%Z && oleb (phi (unrev (fst p))) t) (pairings dg) = 0).
    { apply count_none. intros [i j] Hp. destruct (S1' i j Hp) as (s & u & Hs & Hu & _ & _ & -> & _). cbn [snd unrev]. rewrite (Hdim _ Hs). destruct (Z.eqb_spec (Z.of_nat (length s) - 1 + 1) (Z.of_nat 0)) as [E|]; auto. destruct s; [destruct Hs; congruence|cbn [length] in E; lia]. }
    rewrite Ez, Nat.add_0_r, Nat.add_comm. f_equal. rewrite S4. destruct (Nat.eqb_spec (length d) 0); [lia|]. unfold count. cbn [filter unrev]. rewrite (Hdim _ H0). cbn [length]. change (Z.of_nat 1 - 1 =? Z.of_nat 0)%Z with true. cbn [andb below filter]. now destruct (oleb (phi (code (length d) [0])) t).
  - cbn [below]. rewrite count_map. unfold P. rewrite count_filter.
    assert (Ez : count (fun c : rN => (dim (unrev c) =? Z.of_nat (S k))%Z && oleb (phi (unrev c)) t) (essential dg) = 0).
    { apply count_none. intros c Hc. rewrite S4 in Hc. destruct (Nat.eqb_spec (length d) 0); [lia|]. destruct Hc as [<-|[]]. cbn [unrev]. rewrite (Hdim _ H0). cbn [length]. destruct (Z.eqb_spec (Z.of_nat 1 - 1) (Z.of_nat (S k))); [lia|reflexivity]. }
    match goal with |- _ = ?a + _ + _ => change (count (fun c : rN => (dim (unrev c) =? Z.of_nat (S k))%Z && oleb (phi (unrev c)) t) (essential dg)) with a in Ez end. rewrite Ez. cbn [Nat.add]. f_equal. apply count_ext. intros p _. f_equal. destruct (Z.eqb_spec (dim (unrev (snd p))) (Z.of_nat k)); destruct (Z.eqb_spec (dim (unrev (snd p)) + 1) (Z.of_nat (S k))); auto; lia.
Qed.
Print Assumptions C102_level_counts.

(** When all dimensions are computed, the alternating count of the bars alive at [t] is the Euler characteristic of the complex at [t]. *)
Theorem C102_euler_characteristic :
  forall (HI : heaps) (K : coeffT) (F : ordT) (uw : N) (z : F) (d : list (list F)) (max_dim : nat),
  1 <= length d <= max_dim + 1 -> rips_matrix z d -> 1 <= max_dim -> codes_fit uw (length d) (max_dim + 2) ->
  forall (L : list N) (fuel : nat), covers_simplices (length d) (max_dim + 2) L -> length L < fuel ->
  exists rc dg, rips_cohomology HI (K:=K) fuel uw z d max_dim = Ok (rc, dg) /\
    forall (phi : N_ord -> F) (dim : N_ord -> Z), rips_filtration z d phi -> simplex_dim (length d) dim ->
    forall (l : list N_ord) (t : F), lists_simplices (length d) (length d) l ->
      signed_count dim (fun c => oleb (phi c) t) l =
        (signed_count (fun c => dim (unrev c)) (fun c => oleb (phi (unrev c)) t) (essential dg) +
         signed_count (fun p : rN * rN => dim (unrev (snd p))) (fun p : rN * rN => oleb (phi (unrev (snd p))) t && oltb t (phi (unrev (fst p)))) (pairings dg))%Z.
Proof.
  intros HI K F uw z d m [Hn Hn'] Hd Hm Hfit L fuel HL Hfuel.
  destruct (@C44_cohomology_intrinsic HI K F uw z d m Hd Hm Hfit L fuel HL Hfuel) as (rc & dg & Erun & N1 & N2 & _).
  destruct (@C44_diagram_shape HI K F uw z d m Hd Hm Hfit L fuel HL Hfuel) as (rc' & dg' & E' & S1 & S2 & S3 & S4).
  rewrite Erun in E'. injection E' as <- <-. exists rc, dg. split; auto. intros phi dim Hphi Hdim l t [Hnd Hl].
  assert (H0 : simplex (length d) [0]) by (split; [discriminate|]; split; repeat constructor; lia).
  assert (HP : Permutation l (map unrev (essential dg) ++ map (fun p : rN * rN => unrev (snd p) : N) (pairings dg) ++ map (fun p : rN * rN => unrev (fst p) : N) (pairings dg))).
  { assert (Een : map unrev (essential dg) = [code (length d) [0]]) by (rewrite S4; destruct (Nat.eqb_spec (length d) 0); [lia|reflexivity]). rewrite Een. cbn [app].
    apply NoDup_Permutation; auto.
    - constructor.
      + rewrite in_app_iff, !in_map_iff. destruct (S2 _ H0 ltac:(cbn; lia)) as (_ & _ & H3). intros [([i [j]] & E & Hp)|([[i] j] & E & Hp)]; destruct (H3 eq_refl _ Hp) as [X Y]; cbn [fst snd unrev] in *; [apply Y|apply X]; now f_equal.
      + apply nodup_app_intro.
        * apply map_nodup; auto. intros [i [j]] [i' [j']] H H' E. cbn in E. subst j'. f_equal. now apply (S3 _ _ _ _ H H').
        * apply map_nodup; auto. intros [[i] j] [[i'] j'] H H' E. cbn in E. subst i'. f_equal. now apply (S3 _ _ _ _ H H').
        * intros c Hc Hc'. apply in_map_iff in Hc, Hc'. destruct Hc as ([i [j]] & <- & H). destruct Hc' as ([[i'] j'] & E & H'). cbn [fst snd unrev] in *. subst i'.
          destruct (S1 _ _ H) as (s & u & _ & _ & Hs & _ & Hls & _ & Ej & _). injection Ej as ->. destruct (S2 s Hs Hls) as (_ & H2 & _). apply H2. split; eauto.
    - intros c. rewrite Hl. cbn [In]. rewrite in_app_iff, !in_map_iff. split.
      + intros (s & Hs & Hls & ->). destruct (S2 s Hs ltac:(lia)) as ([->|[(i & Hi)|(j & Hj)]] & _); auto.
        * right. left. eexists. split; [|exact Hi]. reflexivity.
        * right. right. eexists. split; [|exact Hj]. reflexivity.
      + intros [<-|[([i j] & <- & H)|([i j] & <- & H)]].
        * exists [0]. split; auto.
        * destruct (S1 _ _ H) as (s & u & _ & _ & Hs & _ & _ & _ & -> & _). exists s. split; auto. split; auto. now apply simplex_length.
        * destruct (S1 _ _ H) as (s & u & _ & _ & _ & Hu & _ & _ & _ & -> & _). exists u. split; auto. split; auto. now apply simplex_length. }
  rewrite (signed_perm _ _ HP), !signed_app, !signed_map. f_equal. clear HP.
  assert (Hb : forall i j, In (i, j) (pairings dg) -> dim (unrev i) = (dim (unrev j) + 1)%Z /\ ole (phi (unrev j)) (phi (unrev i))).
  { intros i j H. destruct (S1 _ _ H) as (s & u & fs & fu & Hs & Hu & _ & Hlu & -> & -> & D1 & D2 & Hle). cbn [unrev]. rewrite (Hdim _ Hs), (Hdim _ Hu). split; [lia|].
    rewrite (diameter_unique (Hphi s Hs) D1), (diameter_unique (Hphi u Hu) D2). exact Hle. }
  clear - Hb. induction (pairings dg) as [|[i j] ps IH]; [reflexivity|]. destruct (Hb i j (or_introl eq_refl)) as [Ed Hle]. specialize (IH ltac:(intros; apply Hb; now right)).
  unfold signed_count in *. cbn [fold_right fst snd]. rewrite Ed. rewrite Z.even_add. change (Z.even 1) with false.
  assert (Hnot : oltb t (phi (unrev i)) = negb (oleb (phi (unrev i)) t)).
  { destruct (oltb_spec t (phi (unrev i))) as [H|H], (oleb_spec (phi (unrev i)) t) as [H'|H']; auto; exfalso; [apply olt_not_le in H; auto|apply H; now apply olt_not_le]. }
  rewrite Hnot. destruct (oleb_spec (phi (unrev j)) t) as [Hj|Hj], (oleb_spec (phi (unrev i)) t) as [Hi|Hi]; cbn [andb negb]; [destruct (Z.even (dim (unrev j))); cbn [Bool.eqb]; lia|destruct (Z.even (dim (unrev j))); lia|exfalso; apply Hj; eapply ole_trans; eauto|lia].
Qed.
Print Assumptions C102_euler_characteristic.

(** Four points around a square (sides 2, diagonals 3), all dimensions: at time 2 there are 4 vertices and 4 edges and nothing else (Euler characteristic 0), and the bars alive are the
    essential one (dimension 0) and (2, 3) in dimension 1. *)
Definition sq : list (list nat_ord) := [[0; 2; 3; 2]; [2; 0; 2; 3]; [3; 2; 0; 2]; [2; 3; 2; 0]].
Example C102_ex :
  rips_matrix (0 : nat_ord) sq /\ 1 <= length sq <= 3 + 1 /\ codes_fit (2 ^ 64) (length sq) (3 + 2) /\ covers_simplices (length sq) (3 + 2) (map N.of_nat (seq 0 3125)) /\
  (exists sz ess bars, rips_main list_heaps 3200 (2 ^ 64) (0 : nat_ord) Nat.sub (0 : nat_ord) sq 3 = Ok (sz, ess, bars) /\ map (fun l => (fst (fst l), snd l)) bars = [(1, (2, 3)); (0, (0, 2)); (0, (0, 2)); (0, (0, 2))]) /\
  (exists rc dg, rips_cohomology list_heaps (K:=Z2_coeff) 3200 (2 ^ 64) (0 : nat_ord) sq 3 = Ok (rc, dg) /\ length (pairings dg) = 7 /\ length (essential dg) = 1).
Proof.
  assert (Hle : forall (a b : nat_ord), ole a b <-> a <= b) by (intros a b; unfold ole; cbn [cmp nat_ord]; apply Nat.compare_le_iff).
  assert (HD : distance_matrix (0 : nat_ord) sq).
  { split; [intros row H; simpl in H; repeat (destruct H as [<-|H]; [reflexivity|]); destruct H|]. change (length sq) with 4. split; [|split].
    - intros i j Hi Hj. do 4 (destruct i as [|i]; [do 4 (destruct j as [|j]; [reflexivity|]); lia|]). lia.
    - intros i Hi. do 4 (destruct i as [|i]; [reflexivity|]). lia.
    - intros i j Hi Hj. apply Hle. apply Nat.le_0_l. }
  split; [exact (distance_rips HD)|]. split; [cbn; lia|].
  assert (Hb : forall s, simplex (length sq) s -> length s <= 3 + 2 -> (code (length sq) s < 3125)%N).
  { intros s Hs Hl. pose proof (@code_bound (length sq) s ltac:(apply Hs)) as Hc. eapply N.lt_le_trans; [exact Hc|]. change (length sq) with 4. 
    apply N.le_trans with ((N.of_nat 4 + 1) ^ 5)%N; [apply N.pow_le_mono_r; lia|vm_compute; discriminate]. }
  split; [intros s Hs Hl; eapply N.lt_trans; [now apply Hb|reflexivity]|]. split; [intros s Hs Hl; apply in_map_iff; exists (N.to_nat (code (length sq) s)); split; [apply N2Nat.id|apply in_seq; specialize (Hb s Hs Hl); lia]|].
  split; [do 3 eexists; split; vm_compute; reflexivity|do 2 eexists; split; [vm_compute; reflexivity|split; reflexivity]].
Qed.
