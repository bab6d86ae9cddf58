(** The generating 2-cells born by a time are a basis of the boundary-invariant 2-paths at that time. *)
From Verif Require Import Base Fields FieldsFacts Spec LinAlg Columns ColumnsFacts Matrices SpecMat MatricesFacts Reduction Graded StandardResults Duality GrpphCells Grpph SpecGrpph SpecPath GrpphFacts GrpphColumns GrpphComplex.
From Coq Require Import Ring Field Ring_theory Permutation Lia.
Set Implicit Arguments.

Lemma cell2_eq_dec (x y : cell2) : {x = y} + {x <> y}.
Proof. repeat decide equality. Qed.

Section OrdB.
  Context {F : ordT}.
  Lemma oltb_lt (x y : F) : oltb x y = true <-> olt x y.
  Proof. destruct (oltb_spec x y); split; auto; discriminate. Qed.
  Lemma oleb_le (x y : F) : oleb x y = true <-> ole x y.
  Proof. destruct (oleb_spec x y); split; auto; discriminate. Qed.
  Lemma oltb_false (x y : F) : oltb x y = false -> ole y x.
  Proof. destruct (oltb_spec x y) as [|H]; [discriminate|]. intros _. destruct (ole_total y x); auto. destruct (oleb_spec y x) as [|H']; auto. apply olt_not_le in H'. contradiction. Qed.
End OrdB.

Section VsumSupport.
  Context {K : coeffT}.
  Add Field KFVS : (F_field K).
  Lemma vsum_support {A} (l m : list A) (f : A -> option K) : NoDup l -> NoDup m -> (forall x, f x <> f0 -> (In x l <-> In x m)) -> vsum l f = vsum m f.
  Proof.
    intros Hl Hm H. set (nz := fun x => match f x with None => false | Some _ => true end).
    assert (E : forall L, vsum L f = vsum (filter nz L) f).
    { intros L. rewrite vsum_filter. apply vsum_ext. intros a _. unfold nz. destruct (f a); reflexivity. }
    rewrite (E l), (E m). apply vsum_perm. apply NoDup_Permutation; try now apply NoDup_filter.
    intros x. rewrite !filter_In. assert (Hx : nz x = true -> (In x l <-> In x m)).
    { unfold nz. intros Hx. apply H. destruct (f x); [discriminate|discriminate Hx]. }
    tauto.
  Qed.
End VsumSupport.

Section PathBasis.
  Context {K : coeffT} {F : ordT}.
  Add Field KFPB : (F_field K).
  Variables (time : nat -> nat -> option F) (n : nat) (z inf : F).
  Hypothesis HG : filtered_digraph time n z inf.
  Notation tp := (path_time time).
  Notation gen := (generator time).
  Notation bd2 u := (path_bdry (K:=K) n u).

  (** *** linearity *)
  Lemma path_bdry_ext (u v : path_chain (K:=K)) x y : (forall a b c, u a b c = v a b c) -> bd2 u x y = bd2 v x y.
  Proof. intros H. unfold path_bdry. apply vsum_ext. intros a _. apply vsum_ext. intros b _. apply vsum_ext. intros c _. now rewrite H. Qed.
  Lemma path_bdry_comb {A} (L : list A) (w : A -> option K) (u : A -> path_chain (K:=K)) x y :
    bd2 (fun a b c => vsum L (fun X => fmul (w X) (u X a b c))) x y = vsum L (fun X => fmul (w X) (bd2 (u X) x y)).
  Proof.
    unfold path_bdry.
    transitivity (vsum (seq 0 n) (fun a => vsum (seq 0 n) (fun b => vsum (seq 0 n) (fun c => vsum L (fun X => fmul (w X) (fmul (u X a b c) (path_boundary a b c x y))))))).
    { apply vsum_ext. intros a _. apply vsum_ext. intros b _. apply vsum_ext. intros c _.
      transitivity (fmul (path_boundary a b c x y) (vsum L (fun X => fmul (w X) (u X a b c)))); [ring|]. rewrite <- vsum_mul_l. apply vsum_ext. intros X _. ring. }
    transitivity (vsum (seq 0 n) (fun a => vsum (seq 0 n) (fun b => vsum L (fun X => vsum (seq 0 n) (fun c => fmul (w X) (fmul (u X a b c) (path_boundary a b c x y))))))).
    { apply vsum_ext. intros a _. apply vsum_ext. intros b _. apply vsum_swap. }
    transitivity (vsum (seq 0 n) (fun a => vsum L (fun X => vsum (seq 0 n) (fun b => vsum (seq 0 n) (fun c => fmul (w X) (fmul (u X a b c) (path_boundary a b c x y))))))).
    { apply vsum_ext. intros a _. apply vsum_swap. }
    rewrite vsum_swap. apply vsum_ext. intros X _. rewrite <- vsum_mul_l. apply vsum_ext. intros a _. rewrite <- vsum_mul_l. apply vsum_ext. intros b _.
    rewrite <- vsum_mul_l. apply vsum_ext. intros c _. reflexivity.
  Qed.
  Lemma path_bdry_sub (u v : path_chain (K:=K)) x y : bd2 (fun a b c => fsub (u a b c) (v a b c)) x y = fsub (bd2 u x y) (bd2 v x y).
  Proof.
    unfold path_bdry. rewrite <- vsum_sub. apply vsum_ext. intros a _. rewrite <- vsum_sub. apply vsum_ext. intros b _. rewrite <- vsum_sub. apply vsum_ext. intros c _. ring.
  Qed.
  Lemma path_bdry_single a b c x y : a < n -> b < n -> c < n ->
    bd2 (fun a' b' c' => delta ((a =? a') && (b =? b') && (c =? c'))) x y = path_boundary a b c x y.
  Proof.
    intros Ha Hb Hc. unfold path_bdry.
    assert (HN : forall v, v < n -> In v (seq 0 n)) by (intros v Hv; apply in_seq; lia).
    rewrite (@vsum_single K nat (seq 0 n) _ a);[ |apply seq_NoDup|auto| ].
    2:{ intros a' _ Hne. apply vsum_0. intros b' _. apply vsum_0. intros c' _. destruct (Nat.eqb_spec a a'); [congruence|]. cbn [andb delta]. ring. }
    rewrite (@vsum_single K nat (seq 0 n) _ b);[ |apply seq_NoDup|auto| ].
    2:{ intros b' _ Hne. apply vsum_0. intros c' _. destruct (Nat.eqb_spec b b'); [congruence|]. rewrite andb_false_r. cbn [andb delta]. ring. }
    rewrite (@vsum_single K nat (seq 0 n) _ c);[ |apply seq_NoDup|auto| ].
    2:{ intros c' _ Hne. destruct (Nat.eqb_spec c c'); [congruence|]. rewrite andb_false_r. cbn [andb delta]. ring. }
    rewrite !Nat.eqb_refl. cbn [andb delta]. ring.
  Qed.
  Lemma gen_bdry X f x y : gen X f -> bd2 (path_coef X) x y = cell_boundary (K:=K) (TwoCell X) (Edge x y).
  Proof.
    intros HX. pose proof (gen_ends HG HX) as He. destruct X as [a b|a b c|a b c d]; cbn [path_coef cell_boundary].
    - apply path_bdry_single; tauto.
    - apply path_bdry_single; tauto.
    - etransitivity; [apply (path_bdry_sub (fun a' b' c' => delta ((a =? a') && (c =? b') && (d =? c'))) (fun a' b' c' => delta ((a =? a') && (b =? b') && (d =? c'))))|].
      rewrite !path_bdry_single by tauto. reflexivity.
  Qed.

  (** *** generators are invariant *)
  Lemma delta3 a b c x y w : (delta ((a =? x) && (b =? y) && (c =? w)) : option K) <> f0 -> a = x /\ b = y /\ c = w.
  Proof.
    intros H. apply delta_and3. destruct ((a =? x) && (b =? y) && (c =? w)); auto; try exfalso; apply H; reflexivity.
  Qed.
  Lemma delta3_same a b c : (delta ((a =? a) && (b =? b) && (c =? c)) : option K) = f1.
  Proof. now rewrite !Nat.eqb_refl. Qed.
  Lemma delta3_mid a b b' c : b <> b' -> (delta ((a =? a) && (b =? b') && (c =? c)) : option K) = f0.
  Proof. intros H. apply Nat.eqb_neq in H. now rewrite !Nat.eqb_refl, H. Qed.

  Definition bridgeb (a b c : nat) : bool :=
    match tp a b c, time a c with Some f, Some g => oltb f g | Some _, None => true | None, _ => false end.
  Lemma bridgeb_iff a b c : bridgeb a b c = true <-> bridge time a b c.
  Proof.
    unfold bridgeb, bridge. destruct (tp a b c) as [f|]; [|split; [discriminate|intros (f & [=] & _)]].
    destruct (time a c) as [g|].
    - rewrite oltb_lt. split; [intros H; exists f; split; auto; intros g' [= <-]; auto|]. intros (f' & [= <-] & H). auto.
    - split; auto. intros _. exists f. split; auto. discriminate.
  Qed.

  (** the generators containing a path *)
  Lemma gen_path X f x y w : gen X f -> path_coef (K:=K) X x y w <> f0 ->
    (x = w /\ X = DoubleEdge x y) \/
    (x <> w /\ X = DirectedTriangle x y w /\ (~ bridge time x y w \/ primary_bridge time x y w)) \/
    (x <> w /\ primary_bridge time x y w /\ exists b, b <> y /\ bridge time x b w /\ X = LongSquare x y b w) \/
    (x <> w /\ bridge time x y w /\ exists p, p <> y /\ primary_bridge time x p w /\ X = LongSquare x p y w).
  Proof.
    intros HX Hn. destruct HX as [a b f Ef|a b c f g Hac Ef Eg Hle|a b c g Hac Hp Eg|a b b' c f Hac Hp Hb Hne Ef]; cbn [path_coef] in Hn.
    - apply delta3 in Hn. destruct Hn as (-> & -> & <-). auto.
    - apply delta3 in Hn. destruct Hn as (-> & -> & <-). right. left. split; auto. split; auto. left. intros (f' & E' & H'). rewrite Ef in E'. injection E' as <-.
      apply H' in Eg. now apply olt_not_le in Eg.
    - apply delta3 in Hn. destruct Hn as (-> & -> & <-). right. left. auto.
    - assert (H : (delta ((a =? x) && (b' =? y) && (c =? w)) : option K) <> f0 \/ (delta ((a =? x) && (b =? y) && (c =? w)) : option K) <> f0).
      { destruct (fscalar_dec (delta ((a =? x) && (b' =? y) && (c =? w)) : option K)) as [E1|]; auto.
        destruct (fscalar_dec (delta ((a =? x) && (b =? y) && (c =? w)) : option K)) as [E2|]; auto. exfalso. apply Hn. rewrite E1, E2. ring. }
      destruct H as [H|H]; apply delta3 in H; destruct H as (-> & -> & <-); right; right; [right|left]; split; auto; split; auto.
      + exists b. auto.
      + exists b'. auto.
  Qed.
  Lemma path_edges a b c f t : tp a b c = Some f -> ole f t -> edge_at time t a b /\ edge_at time t b c.
  Proof.
    intros H Hle. apply path_Some in H. destruct H as (f1 & f2 & E1 & E2 & ->).
    split; eexists; (split; [eassumption|]); eapply ole_trans; [apply omax_le_l|exact Hle|apply omax_le_r|exact Hle].
  Qed.
  Lemma edges_path a b c t : edge_at time t a b -> edge_at time t b c -> exists f, tp a b c = Some f /\ ole f t.
  Proof.
    intros (f1 & E1 & L1) (f2 & E2 & L2). exists (omax f1 f2). split; [apply path_Some; eauto|].
    unfold omax. destruct (oleb f1 f2); auto.
  Qed.
  Lemma primary_le a p b c f t : primary_bridge time a p c -> tp a b c = Some f -> ole f t -> exists g, tp a p c = Some g /\ ole g t.
  Proof.
    intros [(g & Eg & _) Hmin] Ef Hle. exists g. split; auto. eapply ole_trans; [|exact Hle].
    destruct (Hmin _ _ _ Eg Ef) as [H|[-> _]]; [now apply olt_le|apply ole_refl].
  Qed.
  Lemma gen_allowed X f t x y w : gen X f -> ole f t -> path_coef (K:=K) X x y w <> f0 -> exists g, tp x y w = Some g /\ ole g t.
  Proof.
    intros HX Hle Hn. destruct (gen_path _ _ _ HX Hn) as [[-> ->]|[(Hxw & -> & H)|[(Hxw & Hp & b & Hb & Hbr & ->)|(Hxw & Hbr & p & Hp & Hpr & ->)]]].
    - inversion HX; subst. eauto.
    - inversion HX; subst; eauto. match goal with H1 : primary_bridge time x y w |- _ => destruct H1 as [(f' & E' & H') _] end. exists f'. split; auto. eapply ole_trans; [|exact Hle]. apply olt_le. auto.
    - inversion HX; subst. eapply primary_le; eauto.
    - inversion HX; subst. eauto.
  Qed.
  Lemma gen_invariant X f t : gen X f -> ole f t -> invariant_2_paths time n t (path_coef (K:=K) X).
  Proof.
    intros HX Hle. split.
    - intros a b c Hn. destruct (gen_allowed _ _ _ HX Hle Hn) as (g & Eg & Hg). eapply path_edges; eauto.
    - intros x y Hn. rewrite (gen_bdry _ _ HX) in Hn.
      destruct (@gen_faces K F time n z inf HG [] X f HX x y Hn) as (g & Eg & Hg). exists g. split; [|eapply ole_trans; eauto]. exact Eg.
  Qed.

  (** *** spanning *)
  Variables (t : F) (L : list cell2).
  Hypothesis HLn : NoDup L.
  Hypothesis HL : forall X, In X L <-> exists f, gen X f /\ ole f t.

  Definition weight (u : path_chain (K:=K)) (X : cell2) : option K :=
    match X with
    | DoubleEdge a b => u a b a
    | LongSquare a p b c => u a b c
    | DirectedTriangle a b c => if bridgeb a b c then vsum (filter (fun b' => bridgeb a b' c) (seq 0 n)) (fun b' => u a b' c) else u a b c
    end.

  (** the coefficient at an edge that is not present is minus the sum over the paths across it *)
  Lemma absent_sum (u : path_chain (K:=K)) a c : invariant_2_paths time n t u -> a <> c -> a < n -> c < n -> ~ edge_at time t a c -> vsum (seq 0 n) (fun b => u a b c) = f0.
  Proof.
    intros [Hall Hinv] Hac Ha Hc Hno.
    assert (E : bd2 u a c = fopp (vsum (seq 0 n) (fun b => u a b c))).
    { unfold path_bdry.
      assert (HN : forall v, v < n -> In v (seq 0 n)) by (intros v Hv; apply in_seq; lia).
      assert (Hterm : forall a' b' c', fmul (u a' b' c') (path_boundary a' b' c' a c) = fmul (u a' b' c') (fopp (delta ((a' =? a) && (c' =? c))))).
      { intros a' b' c'. destruct (fscalar_dec (u a' b' c')) as [->|Hu]; [ring|]. destruct (Hall _ _ _ Hu) as [H1 H2]. unfold path_boundary. f_equal.
        assert (D1 : (delta ((b' =? a) && (c' =? c)) : option K) = f0).
        { destruct (Nat.eqb_spec b' a) as [->|]; auto. destruct (Nat.eqb_spec c' c) as [->|]; auto. contradiction. }
        assert (D2 : (delta ((a' =? a) && (b' =? c)) : option K) = f0).
        { destruct (Nat.eqb_spec a' a) as [->|]; auto. destruct (Nat.eqb_spec b' c) as [->|]; auto. contradiction. }
        rewrite D1, D2. destruct (Nat.eqb_spec a' c') as [<-|].
        - destruct (Nat.eqb_spec a' a) as [->|]; cbn [andb delta]; [|ring]. destruct (Nat.eqb_spec a c); [contradiction|]. cbn [delta]. ring.
        - ring. }
      transitivity (vsum (seq 0 n) (fun a' => vsum (seq 0 n) (fun b' => vsum (seq 0 n) (fun c' => fmul (u a' b' c') (fopp (delta ((a' =? a) && (c' =? c)))))))).
      { apply vsum_ext. intros a' _. apply vsum_ext. intros b' _. apply vsum_ext. intros c' _. apply Hterm. }
      rewrite (@vsum_single K nat (seq 0 n) _ a);[ |apply seq_NoDup|auto| ].
      2:{ intros a' _ Hne. apply vsum_0. intros b' _. apply vsum_0. intros c' _. destruct (Nat.eqb_spec a' a); [congruence|]. cbn [andb delta]. ring. }
      transitivity (vsum (seq 0 n) (fun b => fmul (fopp f1) (u a b c))).
      { apply vsum_ext. intros b _. rewrite (@vsum_single K nat (seq 0 n) _ c);[ |apply seq_NoDup|auto| ].
        - rewrite !Nat.eqb_refl. cbn [andb delta]. ring.
        - intros c' _ Hne. destruct (Nat.eqb_spec c' c); [congruence|]. rewrite andb_false_r. cbn [delta]. ring. }
      rewrite vsum_mul_l. ring. }
    destruct (fscalar_dec (vsum (seq 0 n) (fun b => u a b c))) as [|Hn]; auto. exfalso. apply Hno. apply Hinv. rewrite E.
    intros E0. apply Hn. set (s := vsum (seq 0 n) (fun b => u a b c)) in *. assert (s = fopp (fopp s)) as -> by ring. rewrite E0. ring.
  Qed.

  Lemma spans (u : path_chain (K:=K)) : invariant_2_paths time n t u -> forall x y w, u x y w = vsum L (fun X => fmul (weight u X) (path_coef X x y w)).
  Proof.
    intros Hu x y w.
    assert (Hadm : forall a b c, u a b c <> f0 -> exists f, tp a b c = Some f /\ ole f t).
    { intros a b c Hn. destruct Hu as [Hall _]. destruct (Hall _ _ _ Hn). now apply edges_path. }
    destruct (tp x y w) as [f|] eqn:Ef.
    2:{ assert (u x y w = f0) as -> by (destruct (fscalar_dec (u x y w)) as [|Hn]; auto; apply Hadm in Hn; destruct Hn as (f & E & _); congruence).
        symmetry. apply vsum_0. intros X HX. apply HL in HX. destruct HX as (g & HX & Hg). destruct (fscalar_dec (path_coef (K:=K) X x y w)) as [->|Hn]; [ring|].
        destruct (gen_allowed _ _ _ HX Hg Hn) as (h & Eh & _). congruence. }
    destruct (oleb f t) eqn:Eft.
    2:{ assert (Hnle : ~ ole f t) by (intros H; apply oleb_le in H; congruence).
        assert (u x y w = f0) as -> by (destruct (fscalar_dec (u x y w)) as [|Hn]; auto; apply Hadm in Hn; destruct Hn as (f' & E & Hle); rewrite Ef in E; injection E as <-; contradiction).
        symmetry. apply vsum_0. intros X HX. apply HL in HX. destruct HX as (g & HX & Hg). destruct (fscalar_dec (path_coef (K:=K) X x y w)) as [->|Hn]; [ring|].
        destruct (gen_allowed _ _ _ HX Hg Hn) as (h & Eh & Hh). rewrite Ef in Eh. injection Eh as <-. contradiction. }
    apply oleb_le in Eft. pose proof (path_lt HG _ _ _ Ef) as (Hx & Hy & Hw).
    assert (Hone : forall X, In X L -> path_coef (K:=K) X x y w = f1 -> (forall Y, In Y L -> path_coef (K:=K) Y x y w <> f0 -> Y = X) -> weight u X = u x y w ->
       u x y w = vsum L (fun X => fmul (weight u X) (path_coef X x y w))).
    { intros X HX H1 Honly Hwt. rewrite (@vsum_single K cell2 L _ X); auto.
      - rewrite H1, Hwt. ring.
      - intros Y HY Hne. destruct (fscalar_dec (path_coef (K:=K) Y x y w)) as [->|Hn]; [ring|]. exfalso. apply Hne. auto. }
    destruct (Nat.eq_dec x w) as [<-|Hxw].
    { apply (Hone (DoubleEdge x y)).
      - apply HL. exists f. split; auto. now constructor.
      - apply delta3_same.
      - intros Y HY Hn. apply HL in HY. destruct HY as (g & HY & _). destruct (gen_path _ _ _ HY Hn) as [[_ ->]|[(H & _)|[(H & _)|(H & _)]]]; auto; congruence.
      - reflexivity. }
    destruct (bridgeb x y w) eqn:Ebr.
    2:{ assert (Hnb : ~ bridge time x y w) by (intros H; apply bridgeb_iff in H; congruence).
        assert (Hg : exists g, time x w = Some g /\ ole g f).
        { unfold bridgeb in Ebr. rewrite Ef in Ebr. destruct (time x w) as [g|]; [|discriminate]. exists g. split; auto. now apply oltb_false. }
        destruct Hg as (g & Eg & Hgf). apply (Hone (DirectedTriangle x y w)).
        - apply HL. exists f. split; auto. eapply gen_triangle; eauto.
        - apply delta3_same.
        - intros Y HY Hn. apply HL in HY. destruct HY as (h & HY & _). destruct (gen_path _ _ _ HY Hn) as [[H _]|[(_ & -> & _)|[(_ & [H _] & _)|(_ & H & _)]]]; auto; contradiction.
        - cbn [weight]. now rewrite Ebr. }
    assert (Hbr := Ebr). apply bridgeb_iff in Hbr. destruct (bridge_has_primary HG Hbr) as (p & Hp).
    destruct (Nat.eq_dec y p) as [->|Hyp].
    2:{ apply (Hone (LongSquare x p y w)).
        - apply HL. exists f. split; auto. constructor; auto.
        - cbn [path_coef]. rewrite delta3_same, delta3_mid by auto. ring.
        - intros Y HY Hn. apply HL in HY. destruct HY as (h & HY & _). destruct (gen_path _ _ _ HY Hn) as [[H _]|[(_ & -> & [H|H])|[(_ & H & _)|(_ & H & q & Hq & Hqp & ->)]]].
          + contradiction.
          + contradiction.
          + exfalso. apply Hyp. eapply primary_unique; eauto.
          + exfalso. apply Hyp. eapply primary_unique; eauto.
          + f_equal. eapply primary_unique; eauto.
        - reflexivity. }
    (* the primary bridge: the collapsing triangle and all the squares *)
    set (S0 := vsum (filter (fun b' => bridgeb x b' w) (seq 0 n)) (fun b' => u x b' w)).
    set (tri := DirectedTriangle x p w).
    set (others := filter (fun b' => bridgeb x b' w && negb (b' =? p)) (seq 0 n)).
    assert (HS0 : S0 = fadd (u x p w) (vsum others (fun b' => u x b' w))).
    { unfold S0, others. rewrite !vsum_filter.
      transitivity (vsum (seq 0 n) (fun b' => fadd (if b' =? p then u x p w else f0) (if bridgeb x b' w && negb (b' =? p) then u x b' w else f0))).
      - apply vsum_ext. intros b' _. destruct (Nat.eqb_spec b' p) as [->|]; cbn [negb]; [rewrite Ebr; cbn [andb]; ring|]. rewrite andb_true_r. ring.
      - rewrite vsum_add. f_equal. rewrite (@vsum_single K nat (seq 0 n) _ p); [now rewrite Nat.eqb_refl|apply seq_NoDup|apply in_seq; lia|].
        intros b' _ Hne. apply Nat.eqb_neq in Hne. now rewrite Hne. }
    transitivity (vsum (tri :: map (fun b' => LongSquare x p b' w) others) (fun X => if in_dec cell2_eq_dec X L then fmul (weight u X) (path_coef X x p w) else f0)).
    - cbn [vsum]. rewrite vsum_map.
      assert (E1 : (if in_dec cell2_eq_dec tri L then fmul (weight u tri) (path_coef tri x p w) else f0) = S0).
      { destruct (in_dec cell2_eq_dec tri L) as [Hin|Hno].
        - cbn [weight tri path_coef]. rewrite Ebr, delta3_same. fold S0. ring.
        - symmetry. assert (Habs : ~ edge_at time t x w).
          { intros (g & Eg & Hg). apply Hno. apply HL. exists g. split; auto. apply gen_collapse; auto. }
          rewrite <- (absent_sum Hu Hxw Hx Hw Habs). unfold S0. rewrite vsum_filter. apply vsum_ext. intros b _. destruct (bridgeb x b w) eqn:Eb; auto.
          destruct (fscalar_dec (u x b w)) as [->|Hn]; auto. exfalso. destruct (Hadm _ _ _ Hn) as (h & Eh & Hh). unfold bridgeb in Eb. rewrite Eh in Eb.
          destruct (time x w) as [g|] eqn:Eg; [|discriminate]. apply oltb_false in Eb. apply Habs. exists g. split; auto. eapply ole_trans; eauto. }
      rewrite E1.
      assert (E2 : vsum others (fun a => if in_dec cell2_eq_dec (LongSquare x p a w) L then fmul (weight u (LongSquare x p a w)) (path_coef (LongSquare x p a w) x p w) else f0)
        = vsum others (fun b' => fmul (fopp f1) (u x b' w))).
      { apply vsum_ext. intros b Hb. apply filter_In in Hb. destruct Hb as [_ Hb]. apply andb_prop in Hb. destruct Hb as [Hb Hbp]. apply negb_true_iff, Nat.eqb_neq in Hbp. apply bridgeb_iff in Hb.
        destruct (in_dec cell2_eq_dec (LongSquare x p b w) L) as [Hin|Hno].
        - cbn [weight path_coef]. rewrite delta3_mid by auto. rewrite delta3_same. ring.
        - destruct (fscalar_dec (u x b w)) as [->|Hn]; [ring|]. exfalso. apply Hno. destruct (Hadm _ _ _ Hn) as (h & Eh & Hh). apply HL. exists h. split; auto. constructor; auto. }
      rewrite E2, vsum_mul_l, HS0. generalize (u x p w) (vsum others (fun b' => u x b' w)). intros q r. ring.
    - symmetry. rewrite (@vsum_ext K cell2 L _ (fun X => if in_dec cell2_eq_dec X L then fmul (weight u X) (path_coef X x p w) else f0)).
      2:{ intros X HX. destruct (in_dec cell2_eq_dec X L); [reflexivity|contradiction]. }
      apply vsum_support; auto.
      + constructor.
        * intros H. apply in_map_iff in H. destruct H as (b & E & _). discriminate.
        * apply FinFun.Injective_map_NoDup; [intros b b' [= ->]; reflexivity|]. apply NoDup_filter, seq_NoDup.
      + intros X HX. destruct (in_dec cell2_eq_dec X L) as [Hin|]; [|congruence]. split; auto. intros _.
        assert (Hn : path_coef (K:=K) X x p w <> f0) by (intros E; apply HX; rewrite E; ring).
        apply HL in Hin. destruct Hin as (h & HX' & _). destruct (gen_path _ _ _ HX' Hn) as [[H _]|[(_ & -> & _)|[(_ & _ & b & Hb & Hbb & ->)|(_ & _ & q & Hq & Hqp & ->)]]].
        * contradiction.
        * left. reflexivity.
        * right. apply in_map_iff. exists b. split; auto. apply filter_In. destruct Hbb as (h' & Eh' & Hh'). pose proof (path_lt HG _ _ _ Eh'). split; [apply in_seq; lia|].
          apply andb_true_intro. split; [apply bridgeb_iff; exists h'; auto|]. apply negb_true_iff, Nat.eqb_neq. auto.
        * exfalso. apply Hq. eapply primary_unique; eauto.
  Qed.

  (** *** independence *)
  Lemma independent (w : cell2 -> option K) : (forall x y v, vsum L (fun X => fmul (w X) (path_coef X x y v)) = f0) -> forall X, In X L -> w X = f0.
  Proof.
    intros Hz.
    assert (Hone : forall X x y v, In X L -> path_coef (K:=K) X x y v = f1 -> (forall Y, In Y L -> path_coef (K:=K) Y x y v <> f0 -> Y = X \/ w Y = f0) -> w X = f0).
    { intros X x y v HX H1 Honly. rewrite <- (Hz x y v). rewrite (@vsum_single K cell2 L _ X); auto.
      - rewrite H1. ring.
      - intros Y HY Hne. destruct (fscalar_dec (path_coef (K:=K) Y x y v)) as [->|Hn]; [ring|]. destruct (Honly Y HY Hn) as [|E]; [contradiction|]. rewrite E. ring. }
    assert (Hsq : forall a p b c, In (LongSquare a p b c) L -> w (LongSquare a p b c) = f0).
    { intros a p b c HX. pose proof HX as HX'. apply HL in HX'. destruct HX' as (f & HX' & _). inversion HX'; subst.
      apply (Hone _ a b c HX).
      - cbn [path_coef]. rewrite delta3_same, delta3_mid by auto. ring.
      - intros Y HY Hn. left. apply HL in HY. destruct HY as (g & HY & _). destruct (gen_path _ _ _ HY Hn) as [[H _]|[(_ & -> & [H|H])|[(_ & H & _)|(_ & _ & q & Hq & Hqp & ->)]]].
        + contradiction.
        + contradiction.
        + match goal with H1 : b <> p |- _ => exfalso; apply H1 end. eapply primary_unique; eauto.
        + match goal with H1 : b <> p |- _ => exfalso; apply H1 end. eapply primary_unique; eauto.
        + f_equal. eapply primary_unique; eauto. }
    intros X HX. destruct X as [a b|a b c|a p b c]; [| |now apply Hsq].
    - apply (Hone _ a b a HX); [apply delta3_same|]. intros Y HY Hn. pose proof HY as HY'. apply HL in HY'. destruct HY' as (g & HY' & _).
      destruct (gen_path _ _ _ HY' Hn) as [[_ ->]|[(H & _)|[(H & _)|(H & _)]]]; auto; congruence.
    - apply (Hone _ a b c HX); [apply delta3_same|]. intros Y HY Hn. pose proof HY as HY'. apply HL in HY'. destruct HY' as (g & HY' & _).
      destruct (gen_path _ _ _ HY' Hn) as [[H ->]|[(_ & -> & _)|[(_ & _ & b' & _ & _ & ->)|(_ & _ & q & _ & _ & ->)]]]; auto.
      apply HL in HX. destruct HX as (f & HX & _). exfalso. inversion HX; subst; contradiction.
  Qed.
End PathBasis.
