(** Edges with a vertex that does not exist: the reduction of phlite_grpph panics. *)
From Verif Require Import Base Fields FieldsFacts Spec LinAlg Columns ColumnsFacts Matrices SpecMat MatricesFacts Reduction LoopProofs StandardProofs ReadOffProofs Graded ClearingProofs ClearingTotal StandardResults Duality Rips RipsBasis PropMatrices PropClearing RipsComplex GrpphCells Grpph SpecGrpph GrpphFacts GrpphColumns GrpphComplex GrpphReduce GrpphList GrpphRun.
From Coq Require Import Ring_theory Sorted Permutation Lia.
Set Implicit Arguments.

Notation rC := (rev_ord cell_ord).

(** ** Computations that never run out of fuel *)
Definition halts {A} (x : res A) : Prop := x <> NoFuel.
Lemma halts_Ok {A} (a : A) : halts (Ok a). Proof. discriminate. Qed.
Lemma halts_bind {A B} (x : res A) (f : A -> res B) : halts x -> (forall a, halts (f a)) -> halts (bind x f).
Proof. unfold halts. destruct x; simpl; auto; discriminate. Qed.
Lemma halts_mapM {A B} (f : A -> res B) l : (forall a, halts (f a)) -> halts (mapM f l).
Proof. intros H. induction l; simpl; [apply halts_Ok|]. apply halts_bind; auto. intros. apply halts_bind; auto. intros. apply halts_Ok. Qed.
Lemma halts_flat_mapM {A B} (f : A -> res (list B)) l : (forall a, halts (f a)) -> halts (flat_mapM f l).
Proof. intros H. apply halts_bind; [now apply halts_mapM|]. intros. apply halts_Ok. Qed.
Lemma halts_filter_mapM {A B} (f : A -> res (option B)) l : (forall a, halts (f a)) -> halts (filter_mapM f l).
Proof. intros H. induction l; simpl; [apply halts_Ok|]. apply halts_bind; auto. intros. apply halts_bind; auto. intros. apply halts_Ok. Qed.
Lemma halts_unwrap {A} (o : option A) : halts (unwrap o). Proof. destruct o; discriminate. Qed.
Lemma bind_panic {A B} (x : res A) (f : A -> res B) : halts x -> (forall a, f a = Panic) -> bind x f = Panic.
Proof. unfold halts. destruct x; simpl; auto. congruence. Qed.

(** ** The clearing algorithm at the first column that cannot be built *)
Section ClearPanic.
  Variable HI : heaps.
  Context {K : coeffT} {C F : ordT}.
  Variables (phi : C -> F) (D : fmatrix K C C F) (sb : split_basis C) (dims : list nat) (pre : list (list C)) (P : list C).
  Hypothesis HB : block_shape phi D sb dims (pre ++ [P]).

  Lemma foldM_app {A S} (f : S -> A -> res S) l1 l2 s : foldM f (l1 ++ l2) s = do s <- foldM f l1 s; foldM f l2 s.
  Proof. revert s. induction l1 as [|a l1 IH]; intros s; simpl; auto. destruct (f s a); simpl; auto. Qed.
  Lemma foldM_ext {A S} (f g : S -> A -> res S) l : (forall s a, In a l -> f s a = g s a) -> forall s, foldM f l s = foldM g l s.
  Proof. intros H. induction l as [|a l IH]; intros s; simpl; auto. rewrite H by (simpl; auto). destruct (g s a); simpl; auto. apply IH. intros; apply H; simpl; auto. Qed.

  Lemma clear_panics fuel sub c rest bd : enumerates sub (P ++ c :: rest) ->
    length (row_set (m_col D) (concat (pre ++ [P]))) < fuel ->
    tinv phi D (pre ++ [P]) pre [] P bd [] ->
    m_colf D c = Panic -> ~ In c (concat (pre ++ [P])) -> (forall x, In x (concat (pre ++ [P])) -> mden (m_col D) x c = f0) ->
    foldM (clear_step HI fuel D sub) (seq 0 (b_size sub)) (bd, []) = Panic.
  Proof.
    intros Hen Hf Ht Hp Hc Hz. destruct Hen as [Hs He].
    set (sub' := Basis (length P) (fun i => index P i)).
    assert (Hen' : enumerates sub' P) by (split; auto; intros i x Hx; cbn [sub' b_elem]; now apply index_Ok).
    destruct (@total_fold HI K C F phi D sb dims (pre ++ [P]) HB fuel pre P [] sub' P eq_refl Hen' Hf [] bd [] eq_refl Ht) as (bd1 & low1 & E1 & T).
    rewrite Hs, app_length, seq_app, foldM_app. cbn [length seq Nat.add]. cbn [length] in E1.
    assert (E2 : foldM (clear_step HI fuel D sub) (seq 0 (length P)) (bd, []) = Ok (bd1, low1)).
    { rewrite <- E1. apply foldM_ext. intros [b lo] i Hi. apply in_seq in Hi. unfold clear_step. cbn [sub' b_elem].
      destruct (nth_error P i) as [x|] eqn:Ex; [|apply nth_error_None in Ex; lia].
      rewrite (He i x) by (rewrite nth_error_app1 by lia; exact Ex). now rewrite (proj2 (index_Ok _ _ _) Ex). }
    rewrite E2. cbn [bind foldM]. unfold clear_step at 1.
    rewrite (He (length P) c) by (rewrite nth_error_app2, Nat.sub_diag by lia; reflexivity). cbn [bind].
    destruct T as (T1 & _ & T3 & T4 & _).
    assert (Hm : map_mem c (bd_rc bd1) = false).
    { unfold map_mem. destruct (map_get c (bd_rc bd1)) as [[j|t]|] eqn:Eg; auto; exfalso.
      - apply T3 in Eg. apply T4 in Eg. destruct Eg as ((t & Et) & (Hn & _) & _). rewrite (rtab_eq _ _ _ _ Et) in Hn. apply lincomb_nonzero in Hn.
        destruct Hn as (x & Hx & _ & Hn). apply Hn. now apply Hz.
      - apply T1 in Eg. destruct Eg as [Hd _]. apply Hc. rewrite concat_app. simpl. now rewrite app_nil_r. }
    rewrite Hm. unfold build_bhcol. rewrite Hp. reflexivity.
  Qed.
End ClearPanic.

Section Unknown.
  Variable HI : heaps.
  Context {K : coeffT} {F : ordT} (time : nat -> nat -> option F) (n : nat) (z inf : F) (fil : dfil F) (E : list (nat * nat)).
  Hypothesis HG : filtered_digraph time n z inf.
  Hypothesis Hfil : forall s t, s < n -> t < n -> fil s t = Ok (time s t).
  Hypothesis Hfh : forall s t, halts (fil s t).
  Hypothesis Hbad : forall s t, ~ (s < n /\ t < n) -> fil s t = Panic.
  Hypothesis HEn : NoDup E.

  Definition inr (e : nat * nat) : bool := (fst e <? n) && (snd e <? n).
  Definition Eg : list (nat * nat) := filter inr E.
  Lemma inr_iff e : inr e = true <-> fst e < n /\ snd e < n.
  Proof. unfold inr. rewrite andb_true_iff, !Nat.ltb_lt. tauto. Qed.
  Lemma Eg_in s t : In (s, t) Eg <-> In (s, t) E /\ s < n /\ t < n.
  Proof. unfold Eg. rewrite filter_In, inr_iff. cbn [fst snd]. tauto. Qed.
  Lemma Eg_lt s t : In (s, t) Eg -> s < n /\ t < n. Proof. intros H. apply Eg_in in H. tauto. Qed.
  Lemma Eg_nodup : NoDup Eg. Proof. now apply NoDup_filter. Qed.
  Lemma Eg_mem s t : s < n -> t < n -> @set_mem edge_ord (s, t) E = @set_mem edge_ord (s, t) Eg.
  Proof.
    intros Hs Ht. pose proof (@set_mem_iff edge_ord (s, t) E) as H1. pose proof (@set_mem_iff edge_ord (s, t) Eg) as H2.
    assert (Hi : In (s, t) E <-> In (s, t) Eg) by (rewrite Eg_in; tauto).
    destruct (@set_mem edge_ord (s, t) E), (@set_mem edge_ord (s, t) Eg); auto; intuition discriminate.
  Qed.
  Lemma Eg_eb s t : s < n -> t < n -> eb time z E s t = eb time z Eg s t.
  Proof. intros. unfold eb. now rewrite Eg_mem. Qed.
  Notation birth := (cell_birth time n z Eg).

  Variable bm : kmap edge_ord nat.
  Hypothesis Hbm : forall s t : nat, @map_get edge_ord nat (s, t) bm = bridge_of time n s t.
  Variable b : basis cell_ord.
  Notation D := (GD (K:=K) n z inf fil E bm b).
  Notation Dg := (GD (K:=K) n z inf fil Eg bm b).

  Lemma node_same s : s < n -> node_total_coboundary (K:=K) z fil E n s = node_total_coboundary z fil Eg n s.
  Proof.
    intros Hs. rewrite (@node_col_ok K F time n z fil Hfil E s Hs), (@node_col_ok K F time n z fil Hfil Eg s Hs). f_equal. unfold node_col.
    f_equal; rewrite !flat_map_concat_map; f_equal; apply map_ext_in; intros j Hj; apply in_seq in Hj; rewrite Eg_eb by lia; reflexivity.
  Qed.
  Lemma D_col_same (c : cell_ord) f : birth c f -> cell_dimension c <= 1 -> m_col D (Reverse c) = m_col Dg (Reverse c).
  Proof.
    intros Hb Hd. cbn [GD by_ref fm_default m_col reverse_f]. unfold reverse_oracle. cbn [unrev matrix_with_basis fst fm_default m_col grpph_coboundary].
    destruct c as [s|s t|X]; cbn [grpph_coboundary_column]; auto. destruct Hb as [Hs _]. now rewrite node_same.
  Qed.
  Lemma D_fil_same (c : cell_ord) f : birth c f -> m_fil D (Reverse c) = m_fil Dg (Reverse c).
  Proof.
    intros Hb. cbn [GD by_ref fm_default m_fil reverse_f unrev matrix_with_basis fst grpph_coboundary].
    destruct c as [s|s t|X]; auto. cbn [grpph_filtration_value]. cbn [cell_birth] in Hb. apply eb_iff in Hb. apply (eb_lt HG _ Eg_lt) in Hb. rewrite Eg_mem by tauto. reflexivity.
  Qed.

  (** *** an edge with an unknown vertex has no column *)
  Lemma halts_two_path a c d : halts (two_path_time fil a c d).
  Proof. unfold two_path_time. apply halts_bind; auto. intros [|]; [|apply halts_Ok]. apply halts_bind; auto. intros [|]; apply halts_Ok. Qed.
  Lemma halts_two_cell a c d : halts (two_path_to_two_cell fil bm a c d).
  Proof.
    unfold two_path_to_two_cell. apply halts_bind; [apply halts_two_path|]. intros [|]; [|apply halts_Ok].
    destruct (a =? d); [apply halts_Ok|]. apply halts_bind; auto. intros [|].
    - destruct (oleb _ _); [apply halts_Ok|]. apply halts_bind; [apply halts_unwrap|]. intros. destruct (c =? _); apply halts_Ok.
    - apply halts_bind; [apply halts_unwrap|]. intros. destruct (c =? _); apply halts_Ok.
  Qed.
  Lemma halts_all2 a c d : halts (two_path_to_all_two_cells (K:=K) inf fil n bm a c d).
  Proof.
    unfold two_path_to_all_two_cells. apply halts_bind; [apply halts_two_cell|]. intros [o p]. apply halts_bind; [|intros; apply halts_Ok].
    destruct p; [|apply halts_Ok]. unfold long_squares. apply halts_bind; auto. intros. apply halts_filter_mapM. intros.
    apply halts_bind; [apply halts_two_path|]. intros; apply halts_Ok.
  Qed.
  Lemma bad_edge_panics s t : ~ (s < n /\ t < n) -> edge_total_coboundary (K:=K) inf fil n bm s t = Panic.
  Proof.
    intros H. unfold edge_total_coboundary. apply bind_panic; [apply halts_flat_mapM; intros; apply halts_all2|].
    intros p1. unfold triangle_base_coboundary. rewrite (Hbad H). reflexivity.
  Qed.
  Lemma bad_colf s t : ~ (s < n /\ t < n) -> m_colf D (Reverse (Edge s t)) = Panic.
  Proof.
    intros H. assert (Ec : m_col D (Reverse (Edge s t)) = Panic).
    { cbn [GD by_ref fm_default m_col reverse_f]. unfold reverse_oracle. cbn [unrev matrix_with_basis fst fm_default m_col grpph_coboundary].
      cbn [grpph_coboundary_column]. rewrite (bad_edge_panics H). reflexivity. }
    change (m_colf D (Reverse (Edge s t))) with (default_colf (m_col D) (m_fil D) (Reverse (Edge s t))). unfold default_colf. rewrite Ec. reflexivity.
  Qed.

  (** *** the basis of degree 1 *)
  Definition ephi (c : cell) : F := match c with Edge s t => match eb time z E s t with Some f => f | None => z end | _ => z end.
  Lemma deg1_sub p : In p (deg1 time n z E) -> exists s t f, eb time z E s t = Some f /\ p = (f, Edge s t).
  Proof.
    unfold deg1. rewrite in_app_iff, in_map_iff, in_flat_map. intros [([s t] & <- & Hin)|(i & Hi & H)].
    - exists s, t, z. split; auto. apply eb_iff. left. auto.
    - apply in_flat_map in H. destruct H as (j & Hj & H). destruct (@set_mem edge_ord (i, j) E) eqn:Hm; [destruct H|].
      destruct (time i j) as [f|] eqn:Ht; [|destruct H]. destruct H as [<-|[]]. exists i, j, f. split; auto. apply eb_iff. right. split; auto. intros Hin. apply (@set_mem_iff edge_ord) in Hin. exact (eq_true_false_abs _ Hin Hm).
  Qed.
  Lemma gb1_sub p : In p (gb time n z E 1) -> exists s t f, eb time z E s t = Some f /\ p = (f, Edge s t).
  Proof. intros H. apply deg1_sub. refine (Permutation_in _ (Permutation_sym (@sort_perm (pair_ord F cell_ord) _)) H). Qed.
  Lemma gcells1_nodup : NoDup (gcells time n z E 1).
  Proof.
    apply (@pairs_snd_nodup F cell_ord (gb time n z E 1) ephi).
    - apply (@sorted_nodup' (pair_ord F cell_ord)). apply gb_sorted; exact HEn.
    - intros p Hp. apply gb1_sub in Hp. destruct Hp as (s & t & f & He & ->). cbn [fst snd ephi]. now rewrite He.
  Qed.
  Lemma gcells1_in c : In c (gcells time n z E 1) -> exists s t f, eb time z E s t = Some f /\ c = Edge s t.
  Proof. unfold gcells. rewrite in_map_iff. intros (p & <- & Hp). apply gb1_sub in Hp. destruct Hp as (s & t & f & He & ->). eauto. Qed.
  Lemma gcells1_E s t : In (s, t) E -> In (Edge s t) (gcells time n z E 1).
  Proof.
    intros H. unfold gcells. apply in_map_iff. exists (z, Edge s t). split; auto. cbn [gb]. apply (Permutation_in _ (@sort_perm (pair_ord F cell_ord) _)).
    unfold deg1. apply in_app_iff. left. apply in_map_iff. exists (s, t). auto.
  Qed.
  Lemma gcells0_same : gcells time n z E 0 = gcells time n z Eg 0.
  Proof. reflexivity. Qed.

  Definition okc (c : rC) : bool := match unrev c with Edge s t => inr (s, t) | _ => true end.
  Lemma first_bad {A} (p : A -> bool) (l : list A) : (exists x, In x l /\ p x = false) ->
    exists P c rest, l = P ++ c :: rest /\ p c = false /\ forall x, In x P -> p x = true.
  Proof.
    induction l as [|a l IH]; intros (x & Hx & Hp); [destruct Hx|]. destruct (p a) eqn:Ea.
    - destruct IH as (P & c & rest & -> & Hc & HP). { destruct Hx as [->|Hx]; [congruence|eauto]. }
      exists (a :: P), c, rest. split; auto. split; auto. intros y [<-|Hy]; auto.
    - exists [], a, l. split; [reflexivity|]. split; [exact Ea|]. intros y [].
  Qed.

  Variable phi : cell -> F.
  Hypothesis Hphi : forall c f, birth c f -> phi c = f.
  Notation grphi := (rev_filtration phi : rC -> rev_ord F).
  Variable l : list cell.
  Hypothesis Hin : forall c, In c l <-> exists f, birth c f.

  Lemma D_good (c : cell_ord) f : birth c f -> cell_dimension c <= 1 ->
    coherent_at grphi D (Reverse c) /\
    (forall t k r, m_col D (Reverse c) = Ok t -> In (k, r) t -> cell_dimension (unrev r) = cell_dimension c + 1 /\ exists g, birth (unrev r) g).
  Proof.
    intros Hb Hd. pose proof (@GD_col K F time n z inf HG fil Hfil Eg Eg_lt bm Hbm b c f Hb Hd) as Ec.
    pose proof (D_col_same c _ Hb Hd) as Es. rewrite Ec in Es. split.
    - eapply (@coherent_default K rC rC (rev_ord F)); [exact Es|]. intros k [r] Hr.
      apply (GD_col_in HG _ Eg_lt) in Hr. destruct Hr as (_ & g & Hr). transitivity (m_fil Dg (Reverse r)); [exact (D_fil_same r _ Hr)|]. exact (@GD_fil K F time n z inf HG fil Hfil Eg Eg_lt phi Hphi bm b r g Hr).
    - intros t k r Et Hr. rewrite Es in Et. injection Et as <-. exact (GD_col_in HG _ Eg_lt _ _ _ Hr).
  Qed.

  Section Split.
    Variables (P rest : list rC) (c0 : rC).
    Hypothesis HP : rev_basis (gcells time n z E 1) = P ++ c0 :: rest.
    Hypothesis Hc0 : okc c0 = false.
    Hypothesis HPok : forall x, In x P -> okc x = true.
    Let blk0 : list rC := rev_basis (gcells time n z E 0).
    Let blocks : list (list rC) := [blk0; P].

    Lemma blk0_in (c : rC) : In c blk0 <-> cell_dimension (unrev c) = 0 /\ exists f, birth (unrev c) f.
    Proof. exact (gblock_in HG _ Eg_lt (k:=0) c (le_S _ _ (le_n 0))). Qed.
    Lemma P_in (c : rC) : In c P -> cell_dimension (unrev c) = 1 /\ exists f, birth (unrev c) f.
    Proof.
      intros Hc. assert (Hi : In c (rev_basis (gcells time n z E 1))) by (rewrite HP; apply in_app_iff; auto).
      apply (rev_basis_in' (C:=cell_ord)) in Hi. apply gcells1_in in Hi. destruct Hi as (s & t & f & He & Eu).
      apply HPok in Hc. unfold okc in Hc. rewrite Eu in Hc |- *. apply inr_iff in Hc. cbn [fst snd] in Hc. split; auto. exists f. cbn [cell_birth].
      apply eb_iff. rewrite <- Eg_eb by tauto. exact He.
    Qed.
    Lemma blocks_in (c : rC) : In c (concat blocks) -> cell_dimension (unrev c) <= 1 /\ exists f, birth (unrev c) f.
    Proof.
      unfold blocks. cbn [concat]. rewrite app_nil_r, in_app_iff. intros [H|H]; [apply blk0_in in H|apply P_in in H]; destruct H as [-> H]; auto.
    Qed.
    Lemma D_nz (c r : rC) : In c (concat blocks) -> mden (m_col D) c r <> f0 -> cell_dimension (unrev r) = cell_dimension (unrev c) + 1 /\ exists g, birth (unrev r) g.
    Proof.
      intros Hc Hn. apply blocks_in in Hc. destruct Hc as (Hd & f & Hb). destruct c as [c]. cbn [unrev] in *. unfold mden in Hn.
      destruct (m_col D (Reverse c)) as [t| |] eqn:Et; try congruence. apply coef_in in Hn. destruct Hn as [k Hk]. eapply (proj2 (D_good c _ Hb Hd)); eauto.
    Qed.
    Definition sbX : split_basis rC := SplitBasis (Basis 0 (fun _ => Panic)) (fun d => Ok (Basis (length (nth d blocks [])) (fun i => index (nth d blocks []) i))).
    Lemma bad_shape : block_shape grphi D sbX [0; 1] blocks.
    Proof.
      assert (Hen : forall m : list rC, enumerates (Basis (length m) (fun i => index m i)) m) by (intros m; split; auto; intros i x Hx; cbn [b_elem]; now apply index_Ok).
      refine (conj _ (conj _ (conj _ _))).
      - unfold blocks. cbn [concat]. rewrite app_nil_r. apply NoDup_app_intro.
        + apply (rev_basis_nodup (C:=cell_ord)). change (gcells time n z E 0) with (gcells time n z Eg 0). exact (gcells_nodup HG Eg_lt Eg_nodup _ Hphi (le_S _ _ (le_n 0))).
        + pose proof (rev_basis_nodup (C:=cell_ord) gcells1_nodup) as Hn. rewrite HP in Hn. eapply NoDup_app_l; eauto.
        + intros x H1 H2. apply blk0_in in H1. apply P_in in H2. destruct H1, H2. congruence.
      - constructor; [eexists; split; [reflexivity|apply Hen]|]. constructor; [eexists; split; [reflexivity|apply Hen]|constructor].
      - intros [c] Hc. apply blocks_in in Hc. cbn [unrev] in Hc. destruct Hc as (Hd & f & Hb). exact (proj1 (D_good c _ Hb Hd)).
      - intros pre blk post Eb c r Hc Hn.
        assert (Hcase : (pre = [] /\ blk = blk0) \/ (pre = [blk0] /\ blk = P)).
        { unfold blocks in Eb. destruct pre as [|p0 [|p1 [|p2 pre]]]; cbn in Eb; try discriminate; injection Eb; intros; subst; auto. }
        assert (Hcl : In c (concat blocks)) by (rewrite Eb, concat_app; simpl; rewrite !in_app_iff; auto).
        apply D_nz in Hn; auto. destruct Hn as [Hd Hg].
        destruct Hcase as [[-> ->]|[-> ->]]; cbn [concat app]; [|rewrite app_nil_r]; split.
        + intros Hr. apply blk0_in in Hr, Hc. destruct Hr, Hc. lia.
        + intros c' [].
        + rewrite in_app_iff. intros [Hr|Hr]; [apply blk0_in in Hr|apply P_in in Hr]; apply P_in in Hc; destruct Hr, Hc; lia.
        + intros c' Hc'. destruct (fscalar_dec (mden (m_col D) c' r)) as [|Hn]; auto. exfalso.
          apply D_nz in Hn; [|unfold blocks; cbn [concat]; apply in_app_iff; auto]. apply blk0_in in Hc'. apply P_in in Hc. destruct Hn, Hc, Hc'. lia.
    Qed.
    Lemma bad_rows : length (row_set (m_col D) (concat blocks)) <= length l.
    Proof.
      rewrite <- (map_length (@Reverse cell) l). apply NoDup_incl_length; [apply NoDup_nodup|].
      intros [r] Hr. unfold row_set in Hr. apply nodup_In in Hr. apply in_flat_map in Hr. destruct Hr as ([c] & Hc & Hr).
      apply blocks_in in Hc. cbn [unrev] in Hc. destruct Hc as (Hd & f & Hb).
      destruct (m_col D (Reverse c)) as [t| |] eqn:Et; try (destruct Hr; fail). apply in_map_iff in Hr. destruct Hr as ([k r'] & Er & Hk). cbn [snd] in Er. subst r'.
      destruct (proj2 (D_good c _ Hb Hd) t k _ Et Hk) as [_ Hg]. cbn [unrev] in Hg. apply (in_map (@Reverse cell)). now apply Hin.
    Qed.
    Lemma build_panics fuel : length l < fuel -> build_with_diagram HI fuel D (gsplit time n z E) [0; 1] = Panic.
    Proof.
      intros Hf. assert (Hf' : length (row_set (m_col D) (concat blocks)) < fuel) by (pose proof bad_rows; lia).
      unfold build_with_diagram.
      assert (Hsub : forall k, k <= 1 -> exists sub : basis rC, @sb_dim rC (gsplit time n z E : split_basis rC) k = @Ok (basis rC) sub /\ @enumerates rC sub (rev_basis (gcells time n z E k))).
      { intros k Hk. unfold gsplit. cbn [reverse_split sb_dim]. destruct (cell_split_facts (gbases time n z E)) as (_ & H3).
        destruct (H3 k (gb time n z E k)) as (sub & Es & He). { destruct k as [|[|]]; [reflexivity|reflexivity|lia]. }
        rewrite Es. cbn [bind]. eexists. split; [reflexivity|]. apply (C15_reverse_basis He). }
      destruct (Hsub 0) as (sub0 & Es0 & Hen0); [lia|]. destruct (Hsub 1) as (sub1 & Es1 & Hen1); [lia|].
      assert (T0 : tinv grphi D blocks [] [] blk0 (Builder (Diagram [] []) []) []).
      { unfold tinv. simpl. split; [discriminate|]. split; [discriminate|]. split; [split; [discriminate|tauto]|]. repeat split; try tauto; constructor. }
      destruct (@total_fold HI K rC (rev_ord F) grphi D sbX [0; 1] blocks bad_shape fuel [] blk0 [P] sub0 blk0 eq_refl Hen0 Hf' [] _ [] eq_refl T0) as (bd1 & low1 & E1 & T1).
      assert (R0 : reduce_dimension HI fuel D (gsplit time n z E) (Builder (Diagram [] []) []) 0 = Ok bd1).
      { unfold reduce_dimension. match goal with |- bind ?x _ = _ => assert (Ex : x = Ok sub0) by exact Es0; rewrite Ex; clear Ex end. cbn [bind]. rewrite (proj1 Hen0).
        match goal with |- bind ?m ?f = _ => change (bind m f = bind (Ok (bd1, low1)) f); f_equal end. exact E1. }
      cbn [foldM]. rewrite R0. cbn [bind].
      apply (tinv_next P) in T1. cbn [app] in T1.
      assert (R1 : reduce_dimension HI fuel D (gsplit time n z E) bd1 1 = Panic).
      { unfold reduce_dimension. match goal with |- bind ?x _ = _ => assert (Ex : x = Ok sub1) by exact Es1; rewrite Ex; clear Ex end. cbn [bind]. rewrite HP in Hen1.
        match goal with |- bind ?m ?f = _ => assert (Em : m = Panic) end.
        - apply (@clear_panics HI K rC (rev_ord F) grphi D sbX [0; 1] [blk0] P bad_shape fuel sub1 c0 rest bd1 Hen1 Hf' T1).
          + destruct c0 as [[s|s t|X]]; try discriminate Hc0. apply bad_colf. intros H. unfold okc in Hc0. cbn [unrev] in Hc0. apply (proj2 (inr_iff (s, t))) in H. congruence.
          + intros H. apply (blocks_in c0) in H. destruct H as (Hd & f & Hb). unfold okc in Hc0. destruct (unrev c0) as [s|s t|X]; try discriminate. cbn [cell_birth] in Hb.
            apply eb_iff in Hb. apply (eb_lt HG _ Eg_lt) in Hb. apply (proj2 (inr_iff (s, t))) in Hb. congruence.
          + intros x Hx. destruct (fscalar_dec (mden (m_col D) x c0)) as [|Hn]; auto. exfalso.
            apply (D_nz x c0 Hx) in Hn. destruct Hn as (_ & f & Hb). unfold okc in Hc0. destruct (unrev c0) as [s|s t|X]; try discriminate. cbn [cell_birth] in Hb.
            apply eb_iff in Hb. apply (eb_lt HG _ Eg_lt) in Hb. apply (proj2 (inr_iff (s, t))) in Hb. congruence.
        - rewrite Em. reflexivity. }
      rewrite R1. reflexivity.
    Qed.
  End Split.
  Theorem unknown_vertex_build fuel : (exists s t, In (s, t) E /\ ~ (s < n /\ t < n)) -> length l < fuel ->
    build_with_diagram HI fuel D (gsplit time n z E) [0; 1] = Panic.
  Proof.
    intros (s & t & He & Hst) Hf.
    destruct (@first_bad rC okc (rev_basis (gcells time n z E 1))) as (P & c & rest & HP & Hc & HPok).
    { exists (Reverse (Edge s t)). split; [apply (rev_basis_in' (C:=cell_ord)); now apply gcells1_E|].
      unfold okc. cbn [unrev]. destruct (inr (s, t)) eqn:Ei; auto. apply inr_iff in Ei. contradiction. }
    eapply build_panics; eauto.
  Qed.
End Unknown.
