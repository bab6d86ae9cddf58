(** Lemmas for C89 and C90: the bars of a Rips filtration as lists of values, and how they change when the distances are sent through a weakly
    monotone function. *)
From Verif Require Import Base Fields FieldsFacts Spec LinAlg Columns ColumnsFacts Matrices Reduction Rips SpecRips SpecPath RipsCode RipsFacts RipsBasis RipsComplex PropRips RipsCohomology PropRipsCohomology SpecPH Persistence BettiUnique RipsPersistence PropRipsPersistence PropRipsCli BettiMaps BettiFactor BarsUnique RipsSwap PropRipsOrder RipsRepeat RipsCover PropRipsRepeat Examples.
From Coq Require Import Ring Field Permutation Sorted Lia ListDec.
Set Implicit Arguments.

Section Bars.
  Context {F : ordT} (z : F) (K : coeffT).
  Definition entry_of (d : list (list F)) (x : F) : Prop := exists i j, i < length d /\ j < length d /\ dist z d i j = x.
  (** [es], [ps] are the births of essential classes and the (birth, death) pairs of positive length in degree [q] *)
  Definition rips_bars (d : list (list F)) (q : Z) (es : list F) (ps : list (F * F)) : Prop :=
    (forall b e, In (b, e) ps -> olt b e) /\ (forall b, In b es -> entry_of d b) /\ (forall b e, In (b, e) ps -> entry_of d b /\ entry_of d e) /\
    forall s t, ole s t -> rips_betti z K d q s t (bars_alive s t es ps).
  Lemma rips_bars_unique d q es ps es' ps' : rips_bars d q es ps -> rips_bars d q es' ps' -> Permutation es es' /\ Permutation ps ps'.
  Proof.
    intros (H1 & _ & _ & H2) (H1' & _ & _ & H2'). apply bars_determined; auto. intros s t Hst. eapply rips_betti_unique; eauto.
  Qed.
  Lemma run_bars (HI : heaps) uw d m : rips_matrix z d -> 1 <= m -> codes_fit uw (length d) (m + 2) ->
    forall L fuel, covers_simplices (length d) (m + 2) L -> length L < fuel ->
    exists rc dg, rips_cohomology HI (K:=K) fuel uw z d m = Ok (rc, dg) /\
      forall (phi : N_ord -> F) (dim : N_ord -> Z), rips_filtration z d phi -> simplex_dim (length d) dim ->
      forall q, (q <= Z.of_nat m)%Z -> rips_bars d q
        (map (fun c => phi (unrev c)) (filter (fun c => (dim (unrev c) =? q)%Z) (essential dg)))
        (filter proper (map (fun p => (phi (unrev (snd p)), phi (unrev (fst p)))) (filter (fun p => (dim (unrev (snd p)) =? q)%Z) (pairings dg)))).
  Proof.
    intros Hd Hm Hfit L fuel HL Hf.
    destruct (@C54_rips_bars_count HI K F uw z d m Hd Hm Hfit L fuel HL Hf) as (rc & dg & E1 & H1).
    destruct (@C44_diagram_shape HI K F uw z d m Hd Hm Hfit L fuel HL Hf) as (rc' & dg' & E2 & S1 & _ & _ & S2). rewrite E1 in E2. injection E2 as <- <-.
    exists rc, dg. split; auto. intros phi dim Hphi Hdim q Hq. cbv zeta in H1.
    assert (Hent : forall u, simplex (length d) u -> entry_of d (phi (code (length d) u))).
    { intros u Hu. destruct (Hphi u Hu) as [(i & j & Hi & Hj & E) _]. exists i, j. split; [|split; [|exact E]]; [exact (proj1 (Forall_forall _ _) (proj2 (proj2 Hu)) i Hi)|exact (proj1 (Forall_forall _ _) (proj2 (proj2 Hu)) j Hj)]. }
    split; [intros; eapply proper_lt; eauto|]. split; [|split].
    - intros b Hb. apply in_map_iff in Hb. destruct Hb as (c & <- & Hc). apply filter_In in Hc. destruct Hc as [Hc _]. rewrite S2 in Hc.
      destruct (Nat.eqb_spec (length d) 0) as [|Hn]; [destruct Hc|]. destruct Hc as [<-|[]]. apply Hent. split; [discriminate|]. split; repeat constructor. lia.
    - intros b e Hbe. apply filter_In in Hbe. destruct Hbe as [Hbe _]. apply in_map_iff in Hbe. destruct Hbe as ([i j] & [= <- <-] & Hij). apply filter_In in Hij. destruct Hij as [Hij _].
      apply S1 in Hij. destruct Hij as (u & v & _ & _ & Hu & Hv & _ & _ & -> & -> & _). cbn [fst snd]. split; apply Hent; auto.
    - intros s t Hst. rewrite alive_bars by auto.
      destruct (@spec_exists K F z d Hd) as (_ & HD & _ & Hls). specialize (Hls (length d + m + 2) ltac:(lia)).
      eexists _, _, _, _. split; [|apply (H1 _ _ _ (length d + m + 2) _ Hphi HD Hdim ltac:(lia) Hls); [exact Hq|reflexivity]].
      split; auto. split; auto. split; auto. exists (length d + m + 2). split; [lia|auto].
  Qed.
  Lemma every_fit (d : list (list F)) m : exists uw, codes_fit uw (length d) (m + 2) /\ covers_simplices (length d) (m + 2) (every z d).
  Proof.
    exists (1 + fold_right N.max 0 (every z d))%N. split; [|intros u Hu _; apply every_in; eauto].
    intros u Hu _. assert (Hin : In (code (length d) u) (every z d)) by (apply every_in; eauto). clear - Hin. induction (every z d) as [|x L IH]; [destruct Hin|]. cbn [fold_right]. destruct Hin as [->|Hin]; [lia|]. specialize (IH Hin). lia.
  Qed.
  Lemma bars_exist d q : rips_matrix z d -> exists es ps, rips_bars d q es ps.
  Proof.
    intros Hd. set (m := S (Z.to_nat q)). destruct (every_fit d m) as (uw & Hfit & HL).
    destruct (@run_bars list_heaps uw d m Hd ltac:(unfold m; lia) Hfit (every z d) _ HL (Nat.lt_succ_diag_r _)) as (rc & dg & _ & H).
    destruct (@spec_exists K F z d Hd) as (Hphi & _ & Hdim & _). do 2 eexists. apply (H _ _ Hphi Hdim). unfold m. lia.
  Qed.
  Lemma data_betti d phi D dim l q s t : rips_matrix z d -> rips_data z d phi D dim l -> exists b : nat, persistent_betti (K:=K) phi dim (-1) l D q s t b.
  Proof.
    intros Hd (X0 & X1 & X2 & k & X3 & X4). set (m := S (Z.to_nat q)). destruct (every_fit d m) as (uw & Hfit & HL).
    destruct (@C54_rips_bars_count list_heaps K F uw z d m Hd ltac:(unfold m; lia) Hfit (every z d) _ HL (Nat.lt_succ_diag_r _)) as (rc & dg & _ & H).
    cbv zeta in H. eexists. apply (H _ _ _ (k + m + 2) l X0 X1 X2); [lia| |unfold m; lia|reflexivity].
    destruct X4 as [X4 X5]. split; auto. intros c. rewrite X5. split; intros (u & U1 & U2 & U3); exists u; split; auto; split; auto; pose proof (simplex_length U1); lia.
  Qed.
End Bars.

(** Two tables with the same sublevel sets at [s] and at [t] *)
Lemma level_betti (K : coeffT) (F F' : ordT) (z : F) (z' : F') (d : list (list F)) (d' : list (list F')) q s t s' t' b :
  rips_matrix z' d' -> length d' = length d ->
  (forall i j, i < length d -> j < length d -> (ole (dist z d i j) s <-> ole (dist z' d' i j) s')) ->
  (forall i j, i < length d -> j < length d -> (ole (dist z d i j) t <-> ole (dist z' d' i j) t')) ->
  rips_betti z K d q s t b -> rips_betti z' K d' q s' t' b.
Proof.
  intros Hd' El Hs Ht (phi & D & dim & l & Hdata & HB). pose proof Hdata as (Hphi & HD & Hdim & k & Hk & Hl).
  destruct (@spec_exists K F' z' d' Hd') as (Hpsi & _). set (psi := some_phi z' d' : N_ord -> F') in Hpsi.
  assert (Hdata' : rips_data z' d' psi D dim l) by (split; auto; rewrite El; split; auto; split; auto; exists k; auto).
  destruct (data_betti q s' t' Hd' Hdata') as (b' & HB').
  assert (Hlev : forall x (x' : F'), (forall i j, i < length d -> j < length d -> (ole (dist z d i j) x <-> ole (dist z' d' i j) x')) -> forall c, In c l -> (ole (phi c) x <-> ole (psi c) x')).
  { intros x x' Hx c Hc. apply Hl in Hc. destruct Hc as (u & Hu & _ & ->).
    assert (Hb0 : forall v, In v u -> v < length d) by (intros v Hv; exact (proj1 (Forall_forall _ _) (proj2 (proj2 Hu)) v Hv)).
    assert (Hu' : simplex (length d') u) by now rewrite El. destruct (Hphi u Hu) as [(i & j & Hi & Hj & E) Hmax]. pose proof (Hpsi u Hu') as [(i' & j' & Hi' & Hj' & E') Hmax']. rewrite El in E', Hmax'. split; intros Hle.
    - rewrite <- E'. apply Hx; auto. eapply ole_trans; [|exact Hle]. auto.
    - rewrite <- E. apply Hx; auto. eapply ole_trans; [|exact Hle]. auto. }
  assert (b = b').
  { apply Nat.le_antisymm.
    - eapply (@interleaved_betti K F F' N_ord phi psi dim (-1)%Z l D q s t s' t'); eauto; intros c Hc; [apply (Hlev _ _ Hs c Hc)|apply (Hlev _ _ Ht c Hc)].
    - eapply (@interleaved_betti K F' F N_ord psi phi dim (-1)%Z l D q s' t' s t); eauto; intros c Hc; [apply (Hlev _ _ Hs c Hc)|apply (Hlev _ _ Ht c Hc)]. }
  subst b'. exists psi, D, dim, l. auto.
Qed.

Definition gmap {F F' : ordT} (g : F -> F') (p : F * F) : F' * F' := (g (fst p), g (snd p)).
(** ** A weakly monotone function of the distances *)
Section Mono.
  Context {F F' : ordT} (z : F) (z' : F') (K : coeffT) (d : list (list F)) (d' : list (list F')) (g : F -> F').
  Hypothesis Hd : rips_matrix z d.
  Hypothesis Hd' : rips_matrix z' d'.
  Hypothesis El : length d' = length d.
  Hypothesis Hg : forall i j, i < length d -> j < length d -> dist z' d' i j = g (dist z d i j).
  Hypothesis Hmono : forall x y, entry_of z d x -> entry_of z d y -> ole x y -> ole (g x) (g y).
  Lemma entries_listed : exists L : list F, forall x, In x L <-> entry_of z d x.
  Proof.
    exists (flat_map (fun i => map (fun j => dist z d i j) (seq 0 (length d))) (seq 0 (length d))). intros x. rewrite in_flat_map. split.
    - intros (i & Hi & Hx). apply in_map_iff in Hx. destruct Hx as (j & E & Hj). apply in_seq in Hi, Hj. exists i, j. repeat split; auto; lia.
    - intros (i & j & Hi & Hj & E). exists i. split; [apply in_seq; lia|]. apply in_map_iff. exists j. split; auto. apply in_seq. lia.
  Qed.
  (** the largest entry whose image is at most [s] *)
  Lemma threshold (s : F') : (forall x, entry_of z d x -> ~ ole (g x) s) \/ exists s0, entry_of z d s0 /\ ole (g s0) s /\ forall x, entry_of z d x -> (ole (g x) s <-> ole x s0).
  Proof.
    destruct entries_listed as (L & HL).
    assert (Hmax : (forall x, In x L -> ~ ole (g x) s) \/ exists s0, In s0 L /\ ole (g s0) s /\ forall x, In x L -> ole (g x) s -> ole x s0).
    { clear HL. induction L as [|a L IH]; [left; intros x []|]. destruct (oleb_spec (g a) s) as [Ha|Ha].
      - right. destruct IH as [IH|(s0 & H1 & H2 & H3)].
        + exists a. split; [now left|]. split; auto. intros x [<-|Hx] Hle; [apply ole_refl|]. exfalso. exact (IH x Hx Hle).
        + destruct (oleb_spec a s0) as [Hc|Hc].
          * exists s0. split; [now right|]. split; auto. intros x [<-|Hx]; auto.
          * exists a. split; [now left|]. split; auto.  intros x [<-|Hx] Hle; [apply ole_refl|].
            eapply ole_trans; [apply H3; auto|]. destruct (ole_total s0 a) as [|Hx']; [auto|contradiction].
      - destruct IH as [IH|(s0 & H1 & H2 & H3)]; [left; intros x [<-|Hx]; auto|]. right. exists s0. split; [now right|]. split; auto. intros x [<-|Hx] Hle; [contradiction|auto]. }
    destruct Hmax as [H|(s0 & H1 & H2 & H3)]; [left; intros x Hx; apply H; now apply HL|]. right. exists s0. split; [now apply HL|]. split; auto. intros x Hx. split.
    - apply H3. now apply HL.
    - intros Hle. eapply ole_trans; [|exact H2]. apply Hmono; auto. now apply HL.
  Qed.
  Lemma mono_bars q es ps : rips_bars z K d q es ps -> rips_bars z' K d' q (map g es) (filter proper (map (gmap g) ps)).
  Proof.
    intros (B1 & B2 & B3 & B4).
    assert (Hent : forall x, entry_of z d x -> entry_of z' d' (g x)).
    { intros x (i & j & Hi & Hj & E). exists i, j. rewrite El. split; auto. split; auto. now rewrite Hg, E. }
    assert (Hent' : forall y, entry_of z' d' y -> exists x, entry_of z d x /\ y = g x).
    { intros y (i & j & Hi & Hj & E). rewrite El in Hi, Hj. exists (dist z d i j). split; [exists i, j; auto|]. now rewrite <- E, Hg. }
    split; [intros; eapply proper_lt; eauto|]. split; [|split].
    - intros b Hb. apply in_map_iff in Hb. destruct Hb as (x & <- & Hx). auto.
    - intros b e Hbe. apply filter_In in Hbe. destruct Hbe as [Hbe _]. apply in_map_iff in Hbe. destruct Hbe as ([x y] & [= <- <-] & Hxy). cbn [fst snd]. destruct (B3 _ _ Hxy). split; auto.
    - intros s t Hst. rewrite bars_alive_proper by auto.
      assert (Hfm : forall A B (f : A -> B) p L, length (filter p (map f L)) = length (filter (fun x => p (f x)) L)).
      { intros A B f p L. induction L as [|a L IH]; auto. cbn [map filter]. destruct (p (f a)); cbn [length]; auto. }
      destruct (threshold s) as [Hno|(s0 & E0 & G0 & Hs)].
      + assert (Ez : bars_alive s t (map g es) (map (gmap g) ps) = 0).
        { unfold bars_alive. rewrite !Hfm. rewrite (filter_none _ es), (filter_none _ ps); auto.
          - intros [x y] Hxy. unfold gmap. cbn [fst snd]. destruct (oleb_spec (g x) s) as [Hle|]; auto. exfalso. apply (Hno x); auto. apply (B3 _ _ Hxy).
          - intros x Hx. destruct (oleb_spec (g x) s) as [Hle|]; auto. exfalso. apply (Hno x); auto. }
        rewrite Ez. destruct (@bars_exist F' z' K d' q Hd') as (es' & ps' & (C1 & C2 & C3 & C4)).
        assert (Ez' : bars_alive s t es' ps' = 0).
        { unfold bars_alive. rewrite (filter_none _ es'), (filter_none _ ps'); auto.
          - intros [x y] Hxy. cbn [fst snd]. destruct (oleb_spec x s) as [Hle|]; auto. exfalso. destruct (C3 _ _ Hxy) as [Hx _]. apply Hent' in Hx. destruct Hx as (x0 & Hx0 & ->). exact (Hno _ Hx0 Hle).
          - intros x Hx. destruct (oleb_spec x s) as [Hle|]; auto. exfalso. apply C2 in Hx. apply Hent' in Hx. destruct Hx as (x0 & Hx0 & ->). exact (Hno _ Hx0 Hle). }
        rewrite <- Ez'. auto.
      + destruct (threshold t) as [Hno|(t0 & E1 & G1 & Ht)]; [exfalso; apply (Hno s0 E0); eapply ole_trans; eauto|].
        assert (H0 : ole s0 t0) by (apply Ht; auto; eapply ole_trans; eauto).
        assert (Ez : bars_alive s t (map g es) (map (gmap g) ps) = bars_alive s0 t0 es ps).
        { unfold bars_alive. rewrite !Hfm. f_equal; f_equal; apply filter_ext_in.
          - intros x Hx. specialize (Hs x (B2 x Hx)). destruct (oleb_spec (g x) s), (oleb_spec x s0); auto; tauto.
          - intros [x y] Hxy. unfold gmap. cbn [fst snd]. destruct (B3 _ _ Hxy) as [Hx Hy]. specialize (Hs x Hx). specialize (Ht y Hy).
            assert (Ey : oltb t (g y) = oltb t0 y).
            { destruct (oltb_spec t (g y)) as [A|A], (oltb_spec t0 y) as [B|B]; auto; exfalso.
              - apply olt_not_le in A. apply A, Ht; auto. now apply ole_not_lt.
              - apply olt_not_le in B. apply B, Ht; auto. now apply ole_not_lt. }
            rewrite Ey. destruct (oleb_spec (g x) s), (oleb_spec x s0); auto; tauto. }
        rewrite Ez. apply (@level_betti K F F' z z' d d' q s0 t0 s t); auto.
        * intros i j Hi Hj. rewrite Hg by auto. symmetry. apply Hs. exists i, j; auto.
        * intros i j Hi Hj. rewrite Hg by auto. symmetry. apply Ht. exists i, j; auto.
  Qed.
End Mono.
