(** Property theorems C64: what the Rips command-line program prints. *)
From Verif Require Import Base Fields FieldsFacts Spec LinAlg Columns ColumnsFacts Matrices SpecMat MatricesFacts Reduction LoopProofs StandardProofs ReadOffProofs Graded StandardResults ClearingProofs PropMatrices PropStandard PropClearing Duality PropDuality Rips SpecRips SpecPath RipsCode RipsFacts RipsBasis PropRips RipsComplex RipsCohomology PropRipsCohomology SpecPH Persistence BettiUnique RipsPersistence PropRipsPersistence.
From Coq Require Import Sorted Lia.
Set Implicit Arguments.

(** ** Counting simplices *)
Fixpoint combs (n : nat) : nat -> nat -> list (list nat) := fun a k =>
  match k with
  | O => [[]]
  | S k' => match n with O => [] | S n' => map (cons a) (combs n' (S a) k') ++ combs n' (S a) k end
  end.
Lemma combs_length n : forall a k, length (combs n a k) = binomial n k.
Proof.
  induction n as [|n IH]; intros a [|k]; try reflexivity. cbn [combs binomial]. rewrite app_length, map_length, !IH. reflexivity.
Qed.
Lemma combs_in n : forall a k s, In s (combs n a k) <-> StronglySorted lt s /\ Forall (fun v => a <= v < a + n) s /\ length s = k.
Proof.
  induction n as [|n IH]; intros a [|k] s.
  - split; [intros [<-|[]]; repeat constructor|]. intros (_ & _ & H). destruct s; [now left|discriminate].
  - split; [intros []|]. intros (_ & H & E). destruct s as [|v s]; [discriminate|]. inversion H; lia.
  - split; [intros [<-|[]]; repeat constructor|]. intros (_ & _ & H). destruct s; [now left|discriminate].
  - cbn [combs]. rewrite in_app_iff, in_map_iff. split.
    + intros [(t & <- & Ht)|Hs].
      * apply IH in Ht. destruct Ht as (H1 & H2 & H3). split; [constructor; auto; eapply Forall_impl; [|exact H2]; simpl; intros; lia|].
        split; [constructor; [lia|eapply Forall_impl; [|exact H2]; simpl; intros; lia]|simpl; lia].
      * apply IH in Hs. destruct Hs as (H1 & H2 & H3). split; auto. split; auto. eapply Forall_impl; [|exact H2]; simpl; intros; lia.
    + intros (H1 & H2 & H3). destruct s as [|v s]; [discriminate|]. inversion H2 as [|? ? Hv H2']; subst. inversion H1 as [|? ? H1' Hlt]; subst.
      destruct (Nat.eq_dec v a) as [->|Hne].
      * left. exists s. split; auto. apply IH. split; auto. split; [|simpl in H3; lia]. rewrite Forall_forall in *. intros x Hx. specialize (H2' x Hx). specialize (Hlt x Hx). lia.
      * right. apply IH. split; auto. split; auto. rewrite Forall_forall in *. intros x [<-|Hx]; [lia|]. specialize (H2' x Hx). specialize (Hlt x Hx). lia.
Qed.
Lemma combs_nodup n : forall a k, NoDup (combs n a k).
Proof.
  induction n as [|n IH]; intros a [|k]; try (repeat constructor; intros []; fail). cbn [combs]. apply nodup_app_intro.
  - apply FinFun.Injective_map_NoDup; auto. intros x y E. congruence.
  - apply IH.
  - intros s H1 H2. apply in_map_iff in H1. destruct H1 as (t & <- & _). apply combs_in in H2. destruct H2 as (_ & H2 & _). inversion H2; lia.
Qed.

Section Count.
  Context {F : ordT} (z : F) (d : list (list F)) (m : nat).
  Notation n := (length d).
  Hypothesis Hd : rips_matrix z d.
  Hypothesis Hm : 1 <= m.
  Lemma cells_count k : k <= m -> length (cells z d m k) = binomial n (k + 1).
  Proof.
    intros Hk. rewrite <- (combs_length n 0), <- (map_length (code n)). apply Permutation_length. apply NoDup_Permutation.
    - apply cells_nodup; auto.
    - apply nodup_map_in; [apply combs_nodup|]. intros a b Ha Hb E. apply combs_in in Ha, Hb. apply code_inj in E; auto.
      + eapply Forall_impl; [|apply Ha]. simpl. intros; lia.
      + eapply Forall_impl; [|apply Hb]. simpl. intros; lia.
    - intros c. rewrite cells_in by auto. rewrite in_map_iff. split.
      + intros (s & (Hne & Hs & Hb) & Hl & ->). exists s. split; auto. apply combs_in. split; auto. split; auto. eapply Forall_impl; [|exact Hb]. simpl. intros; lia.
      + intros (s & <- & Hs). apply combs_in in Hs. destruct Hs as (Hs & Hb & Hl). exists s. split; auto. split; [intros ->; simpl in Hl; lia|]. split; auto.
        eapply Forall_impl; [|exact Hb]. simpl. intros; lia.
  Qed.
End Count.

Lemma flat_map_filter {A B} (g : B -> bool) (h : A -> B) P : flat_map (fun p => filter g [h p]) P = filter g (map h P).
Proof. induction P as [|p P IH]; auto. cbn [map flat_map]. rewrite IH. cbn [filter]. destruct (g (h p)); reflexivity. Qed.

(** A line of the last listing: dimension, indices of the two simplices, birth and death. *)
Notation bar_line F := (nat * (N * N) * (F * F))%type.

(** ** C64.  For a table of distances, the program prints the numbers of simplices of each dimension up to [max_dim],
    one essential class (the component of the vertex 0, born at zero) and, of the finite bars [bars], those with death - birth above
    the threshold.  Each bar joins a simplex to a coface one dimension up, at their diameters, and in every
    dimension up to [max_dim] the number of bars alive is the persistent Betti number over Z/2 of the
    Vietoris-Rips complex. *)
Theorem C64_rips_program :
  forall (HI : heaps) (F : ordT) (uw : N) (z : F) (sub : F -> F -> F) (eps : F) (d : list (list F)) (max_dim : nat),
  rips_matrix z d -> 1 <= max_dim -> codes_fit uw (length d) (max_dim + 2) ->
  forall (L : list N) (fuel : nat), covers_simplices (length d) (max_dim + 2) L -> length L < fuel ->
  exists (ess : list (nat * N * F)) (bars : list (bar_line F)),
    rips_main HI fuel uw z sub eps d max_dim =
      Ok (map (fun k => binomial (length d) (k + 1)) (seq 0 (max_dim + 1)), ess,
          filter (fun line => oltb eps (sub (snd (snd line)) (fst (snd line)))) bars) /\
    ess = (if length d =? 0 then [] else [(0, code (length d) [0], z)]) /\
    NoDup (map (fun line => snd (fst line)) bars) /\
    (forall k b e fb fe, In (k, (b, e), (fb, fe)) bars ->
       k <= max_dim /\ exists s t, simplex (length d) s /\ simplex (length d) t /\ length s = k + 1 /\ length t = k + 2 /\
         b = code (length d) s /\ e = code (length d) t /\ diameter z d s fb /\ diameter z d t fe /\ ole fb fe) /\
    (forall (phi : N_ord -> F) (D : N_ord -> vec Z2_coeff N_ord) (dim : N_ord -> Z) (k : nat) (l : list N_ord),
      rips_filtration z d phi -> rips_boundary_matrix (length d) D -> simplex_dim (length d) dim ->
      max_dim + 2 <= k -> lists_simplices (length d) k l ->
      forall q s t b, q <= max_dim ->
        (persistent_betti phi dim (-1) l D (Z.of_nat q) s t b <->
         b = bars_alive s t (map snd (filter (fun line : nat * N * F => fst (fst line) =? q) ess))
                            (map snd (filter (fun line : bar_line F => fst (fst line) =? q) bars)))).
Proof.
  intros HI F uw z sub eps d m Hd Hm Hfit L fuel HL Hfuel.
  destruct (@C44_diagram_shape HI Z2_coeff F uw z d m Hd Hm Hfit L fuel HL Hfuel) as (rc & dg & Erun & S1 & S2 & S3 & S4).
  destruct (@C54_rips_bars_count HI Z2_coeff F uw z d m Hd Hm Hfit L fuel HL Hfuel) as (rc' & dg' & E' & Hcount).
  rewrite Erun in E'. injection E' as <- <-. cbv zeta in Hcount.
  destruct (@C44_cohomology_intrinsic HI Z2_coeff F uw z d m Hd Hm Hfit L fuel HL Hfuel) as (rc' & dg' & E' & N1 & N2 & _).
  rewrite Erun in E'. injection E' as <- <-.
  pose proof (proj1 Hd) as Hsq. set (n := length d) in *.
  pose (dm := fun c : N => match to_vec n c with Ok s => length s - 1 | _ => 0 end).
  pose (fv := some_phi z d).
  assert (Hdm : forall s, simplex n s -> rips_dimension n (code n s) = Ok (dm (code n s)) /\ dm (code n s) = length s - 1).
  { intros s Hs. unfold dm, rips_dimension. rewrite to_vec_code by apply Hs. cbn [bind]. split; auto.
    destruct s; [destruct Hs; congruence|]. cbn [length]. rewrite Nat.sub_succ, Nat.sub_0_r. reflexivity. }
  assert (Hfv : forall s, simplex n s -> rips_filtration_value d (code n s) = Ok (fv (code n s)) /\ diameter z d s (fv (code n s))).
  { intros s Hs. destruct (filtration_value_ok z Hsq Hs) as (f & E & Hf). pose proof (some_phi_ok Hd Hs) as Hf'. fold fv in Hf'. rewrite (diameter_unique Hf Hf') in E. auto. }
  pose (ess := map (fun c : rev_ord rips_index => (dm (unrev c), unrev c, fv (unrev c))) (essential dg)).
  pose (bars := map (fun p : rev_ord rips_index * rev_ord rips_index =>
      (dm (unrev (snd p)), (unrev (snd p), unrev (fst p)), (fv (unrev (snd p)), fv (unrev (fst p))))) (pairings dg)).
  exists ess, bars.
  assert (Hess : ess = (if n =? 0 then [] else [(0, code n [0], z)])).
  { unfold ess. rewrite S4. destruct (Nat.eqb_spec n 0) as [E0|Hn]; auto. cbn [map unrev].
    assert (Hs0 : simplex n [0]) by (split; [discriminate|split; repeat constructor; lia]).
    rewrite (proj2 (Hdm _ Hs0)). cbn [length Nat.sub]. do 2 f_equal. destruct (proj1 (proj2 (Hfv _ Hs0))) as (i & j & [<-|[]] & [<-|[]] & Eq).
    rewrite <- Eq. apply Hd. fold n. lia. }
  assert (Hsh : forall k b e fb fe, In (k, (b, e), (fb, fe)) bars ->
       k <= m /\ exists s t, simplex n s /\ simplex n t /\ length s = k + 1 /\ length t = k + 2 /\
         b = code n s /\ e = code n t /\ diameter z d s fb /\ diameter z d t fe /\ ole fb fe).
  { intros k b e fb fe Hin. apply in_map_iff in Hin. destruct Hin as ([i j] & E & Hij). cbn [fst snd] in E.
    apply S1 in Hij. destruct Hij as (s & t & fs & ft & Hs & Ht & Hls & Hlt & -> & -> & Ds & Dt & Hle). cbn [unrev] in E.
    destruct (Hfv s Hs) as [_ Ds']. destruct (Hfv t Ht) as [_ Dt']. rewrite <- (diameter_unique Ds Ds'), <- (diameter_unique Dt Dt') in E.
    rewrite (proj2 (Hdm s Hs)) in E. assert (0 < length s) by (destruct s; [destruct Hs; congruence|simpl; lia]).
    injection E as <- <- <- <- <-. split; [lia|]. exists s, t. do 8 (split; auto; try lia). }
  split; [|split; [exact Hess|split; [|split; [exact Hsh|]]]].
  - unfold rips_main. rewrite coboundary_built by auto. cbn [bind].
    rewrite (@mapM_pure _ _ _ (fun k => binomial n (k + 1))).
    2:{ intros k Hk. apply in_seq in Hk. assert (Hk' : k <= m) by lia. destruct (rsub z d Hm Hk') as (sb & E & Hen). rewrite E. cbn [bind]. f_equal.
        rewrite (proj1 Hen). unfold rev_basis. rewrite map_length, rev_length. apply cells_count; auto. }
    cbn [bind]. rewrite run_unfold in Erun by auto. unfold RD in Erun. rewrite Erun. cbn [bind].
    fold n. rewrite (@mapM_pure _ _ _ (fun c : rev_ord rips_index => (dm (unrev c), unrev c, fv (unrev c)))).
    2:{ intros c Hc. rewrite S4 in Hc. destruct (Nat.eqb_spec n 0) as [E0|Hn]; [destruct Hc|]. destruct Hc as [<-|[]].
        assert (Hs0 : simplex n [0]) by (split; [discriminate|split; repeat constructor; lia]). cbn [reverse_f m_fil unrev]. 
        change (m_fil (fst (matrix_with_basis (rips_coboundary (K:=Z2_coeff) uw d) (tb z d m))) (code n [0])) with (rips_filtration_value d (code n [0])).
        rewrite (proj1 (Hfv _ Hs0)). cbn [bind]. rewrite (proj1 (Hdm _ Hs0)). reflexivity. }
    cbn [bind]. rewrite (@flat_mapM_pure _ _ _ (fun p : rev_ord rips_index * rev_ord rips_index =>
      filter (fun line : bar_line F => oltb eps (sub (snd (snd line)) (fst (snd line))))
       [(dm (unrev (snd p)), (unrev (snd p), unrev (fst p)), (fv (unrev (snd p)), fv (unrev (fst p))))])).
    2:{ intros [i j] Hij. apply S1 in Hij. destruct Hij as (s & t & fs & ft & Hs & Ht & Hls & Hlt & -> & -> & Ds & Dt & Hle). cbn [fst snd reverse_f m_fil unrev].
        change (m_fil (fst (matrix_with_basis (rips_coboundary (K:=Z2_coeff) uw d) (tb z d m)))) with (rips_filtration_value (F:=F) d).
        rewrite (proj1 (Hfv s Hs)), (proj1 (Hfv t Ht)), (proj1 (Hdm s Hs)). cbn [bind unrev filter snd fst]. reflexivity. }
    cbn [bind]. f_equal. f_equal. unfold bars. apply flat_map_filter.
  - unfold bars. rewrite map_map. apply nodup_map_intro; auto. intros [[a] [b]] [[a'] [b']] _ _ [= -> ->]. reflexivity.
  - intros phi D dim k l Hphi HD Hdim Hk Hl q s t b Hq. rewrite (Hcount phi D dim k l Hphi HD Hdim Hk Hl) by lia.
    assert (Hphv : forall u, simplex n u -> phi (code n u) = fv (code n u)).
    { intros u Hu. eapply diameter_unique; [apply Hphi; exact Hu|apply Hfv; exact Hu]. }
    assert (Hdq : forall u, simplex n u -> (dim (code n u) =? Z.of_nat q)%Z = (dm (code n u) =? q)).
    { intros u Hu. rewrite Hdim by auto. rewrite (proj2 (Hdm u Hu)). assert (0 < length u) by (destruct u; [destruct Hu; congruence|simpl; lia]).
      destruct (Nat.eqb_spec (length u - 1) q); [apply Z.eqb_eq|apply Z.eqb_neq]; lia. }
    match goal with |- b = ?x <-> b = ?y => enough (x = y) as -> by reflexivity end.
    unfold alive, bars_alive. rewrite app_length, map_length.
    assert (Hfm : forall A B (f : A -> B) p L, length (filter p (map f L)) = length (filter (fun x => p (f x)) L)).
    { intros A B f p L'. induction L' as [|a L' IH]; auto. cbn [map filter]. destruct (p (f a)); cbn [length]; auto. }
    assert (Hff : forall A (f p : A -> bool) L, filter p (filter f L) = filter (fun x => f x && p x) L).
    { intros A f p L'. induction L' as [|a L' IH]; auto. cbn [filter]. destruct (f a); cbn [filter andb]; [destruct (p a)|]; congruence. }
    unfold ess, bars. rewrite !Hfm, !Hff, !Hfm. f_equal; f_equal; apply filter_ext_in.
    + intros c Hc. rewrite S4 in Hc. destruct (Nat.eqb_spec n 0) as [E0|Hn]; [destruct Hc|]. destruct Hc as [<-|[]].
      assert (Hs0 : simplex n [0]) by (split; [discriminate|split; repeat constructor; lia]). cbn [fst snd unrev]. rewrite Hdq, Hphv by exact Hs0. reflexivity.
    + intros [i j] Hij. apply S1 in Hij. destruct Hij as (u & v & fs & ft & Hu & Hv & Hls & Hlt & -> & -> & Ds & Dt & Hle). cbn [fst snd unrev].
      rewrite Hdq by exact Hu. rewrite (Hphv u Hu), (Hphv v Hv). symmetry. apply andb_assoc.
Qed.
Print Assumptions C64_rips_program.

(** What is printed determines the Betti numbers that survive long enough: if bars that contain [s, t] are all above the threshold,
    the printed bars alive from [s] to [t] are as many as the persistent Betti number. *)
Theorem C64_reported_bars :
  forall (HI : heaps) (F : ordT) (uw : N) (z : F) (sub : F -> F -> F) (eps : F) (d : list (list F)) (max_dim : nat),
  rips_matrix z d -> 1 <= max_dim -> codes_fit uw (length d) (max_dim + 2) ->
  forall (L : list N) (fuel : nat), covers_simplices (length d) (max_dim + 2) L -> length L < fuel ->
  exists sizes (ess : list (nat * N * F)) (printed : list (bar_line F)),
    rips_main HI fuel uw z sub eps d max_dim = Ok (sizes, ess, printed) /\
    (forall k b e fb fe, In (k, (b, e), (fb, fe)) printed -> olt eps (sub fe fb)) /\
    (forall (phi : N_ord -> F) (D : N_ord -> vec Z2_coeff N_ord) (dim : N_ord -> Z) (k : nat) (l : list N_ord),
      rips_filtration z d phi -> rips_boundary_matrix (length d) D -> simplex_dim (length d) dim ->
      max_dim + 2 <= k -> lists_simplices (length d) k l ->
      forall q s t b, q <= max_dim -> (forall fb fe, ole fb s -> olt t fe -> olt eps (sub fe fb)) ->
        (persistent_betti phi dim (-1) l D (Z.of_nat q) s t b <->
         b = bars_alive s t (map snd (filter (fun line : nat * N * F => fst (fst line) =? q) ess))
                            (map snd (filter (fun line : bar_line F => fst (fst line) =? q) printed)))).
Proof.
  intros HI F uw z sub eps d m Hd Hm Hfit L fuel HL Hfuel.
  destruct (@C64_rips_program HI F uw z sub eps d m Hd Hm Hfit L fuel HL Hfuel) as (ess & bars & E & _ & _ & _ & H).
  do 3 eexists. split; [exact E|]. split.
  - intros k b e fb fe Hin. apply filter_In in Hin. destruct Hin as [_ Hin]. cbn [fst snd] in Hin. destruct (oltb_spec eps (sub fe fb)); [auto|discriminate].
  - intros phi D dim k l H1 H2 H3 H4 H5 q s t b Hq Hlong. rewrite (H phi D dim k l H1 H2 H3 H4 H5 q s t b Hq).
    match goal with |- b = ?x <-> b = ?y => enough (x = y) as -> by reflexivity end. unfold bars_alive. f_equal. clear E H.
    induction bars as [|[[k' [b' e']] [fb fe]] bars IH]; auto. cbn [filter fst snd]. pose proof (Hlong fb fe) as Hl.
    destruct (oltb_spec eps (sub fe fb)) as [Hlt|Hnl]; cbn [filter fst]; destruct (k' =? q); auto.
    + cbn [map filter fst snd]. destruct (_ && _); cbn [length]; [f_equal|]; exact IH.
    + cbn [map filter fst snd]. destruct (oleb_spec fb s) as [Ha|]; cbn [andb]; auto. destruct (oltb_spec t fe) as [Hb|]; auto. exfalso. apply Hnl. apply Hl; auto.
Qed.
Print Assumptions C64_reported_bars.

(** [max_dim = 0], which the argument parser accepts, panics on any table with at least two points. *)
Theorem C64_max_dim_zero_panics :
  forall (HI : heaps) (F : ordT) (fuel : nat) (uw : N) (z : F) (sub : F -> F -> F) (eps : F) (d : list (list F)),
  wide d -> 2 <= length d -> (0 < uw)%N -> rips_main HI fuel uw z sub eps d 0 = Panic.
Proof.
  intros HI F fuel uw z sub eps d Hsq Hn Hu. unfold rips_main, build_rips_coboundary_matrix. rewrite C38_max_dim_zero_panics by auto. reflexivity.
Qed.
Print Assumptions C64_max_dim_zero_panics.

(** Four points on a line at 0, 1, 3, 7: the sizes, the essential class, and the bars longer than 1. *)
Example C64_ex : rips_main list_heaps 700 (2 ^ 64) (0 : nat_ord) Nat.sub (1 : nat_ord) line4 1 =
  Ok ([4; 6], [(0, 1%N, 0)], [(0, (3%N, 17%N), (0, 2)); (0, (4%N, 23%N), (0, 4))]).
Proof. vm_compute. reflexivity. Qed.
Example C64_ex_hyps : rips_matrix (0 : nat_ord) line4 /\ codes_fit (2 ^ 64) (length line4) 3 /\ covers_simplices (length line4) 3 (map N.of_nat (seq 0 125)).
Proof.
  split; [apply line4_rips|]. split; [apply line4_fit; lia|]. intros s (Hne & Hs & Hb) Hl. apply in_map_iff. exists (N.to_nat (code 4 s)).
  split; [apply N2Nat.id|]. apply in_seq. pose proof (code_bound Hb) as H. change (length line4) with 4 in *.
  assert ((N.of_nat 4 + 1) ^ N.of_nat (length s) <= 125)%N.
  { transitivity ((N.of_nat 4 + 1) ^ 3)%N; [apply N.pow_le_mono_r; [discriminate|lia]|vm_compute; discriminate]. }
  lia.
Qed.
(** A square of side 3 with diagonals 5: one loop, born at 3 and filled at 5. *)
Definition square4 : list (list nat_ord) := [[0; 3; 5; 3]; [3; 0; 3; 5]; [5; 3; 0; 3]; [3; 5; 3; 0]].
Example C64_ex_square : match rips_main list_heaps 700 (2 ^ 64) (0 : nat_ord) Nat.sub (0 : nat_ord) square4 2 with
  | Ok (sizes, ess, prs) => sizes = [4; 6; 4] /\ ess = [(0, 1%N, 0)] /\ map (fun l => (fst (fst l), snd l)) prs = [(1, (3, 5)); (0, (0, 3)); (0, (0, 3)); (0, (0, 3))]
  | _ => False end.
Proof. vm_compute. auto. Qed.
