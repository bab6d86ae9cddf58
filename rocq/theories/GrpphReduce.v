(** The reversed path-homology coboundary satisfies the contract of the clearing algorithm; its pairs are those of
    the boundary matrix on nodes, edges and generating 2-cells. *)
From Verif Require Import Base Fields FieldsFacts Spec LinAlg Columns ColumnsFacts Matrices SpecMat MatricesFacts Reduction LoopProofs StandardProofs ReadOffProofs Graded StandardResults ClearingProofs PropMatrices PropStandard PropClearing Duality PropDuality Rips RipsBasis PropRips RipsComplex RipsCohomology GrpphCells Grpph SpecGrpph GrpphFacts GrpphColumns GrpphComplex.
From Coq Require Import Ring_theory Sorted Permutation Lia.
Set Implicit Arguments.

Lemma NoDup_app_intro {A} (l m : list A) : NoDup l -> NoDup m -> (forall x, In x l -> In x m -> False) -> NoDup (l ++ m).
Proof.
  induction 1 as [|a l Ha Hl IH]; simpl; auto. intros Hm Hd. constructor.
  - rewrite in_app_iff. intros [|H]; eauto.
  - apply IH; auto. intros x H1 H2. eapply Hd; eauto.
Qed.
(** sorted duplicate-free lists of (value, element) pairs *)
Section SortedPairs.
  Context {F C : ordT}.
  Lemma sorted_split {T : ordT} (l A B : list T) x y : StronglySorted (@olt T) l -> l = A ++ x :: B -> In y B -> olt x y.
  Proof.
    intros H ->. induction A as [|a A IH]; simpl in H; intros Hy.
    - apply StronglySorted_inv in H. destruct H as [_ H]. rewrite Forall_forall in H. auto.
    - apply StronglySorted_inv in H. apply IH; tauto.
  Qed.
  Lemma sorted_nodup' {T : ordT} (l : list T) : StronglySorted (@olt T) l -> NoDup l.
  Proof.
    intros H. induction H as [|x l H IH Hf]; constructor; auto. rewrite Forall_forall in Hf. intros Hx. apply Hf in Hx. now apply olt_irrefl in Hx.
  Qed.
  Lemma pairs_before (l : list (F * C)) (phi : C -> F) x y : StronglySorted (@olt (pair_ord F C)) l ->
    (forall p, In p l -> fst p = phi (snd p)) -> before (map snd l) x y -> row_lt phi x y.
  Proof.
    intros Hst Hin H. apply before_split in H. destruct H as (A & B & E & Hy).
    apply map_eq_app in E. destruct E as (A' & R & E & EA & ER). apply map_eq_cons in ER. destruct ER as (p & B' & -> & Ep & EB).
    subst B. apply in_map_iff in Hy. destruct Hy as (q & Eq & Hq).
    pose proof (@sorted_split (pair_ord F C) l A' B' p q Hst E Hq) as Hpq. rewrite E in Hin.
    assert (Hp : fst p = phi x) by (rewrite <- Ep; apply Hin; apply in_app_iff; simpl; auto).
    assert (Hq' : fst q = phi y) by (rewrite <- Eq; apply Hin; apply in_app_iff; simpl; auto).
    destruct p as [fp cp], q as [fq cq]. cbn [fst snd] in *. subst fp fq cp cq. unfold olt in Hpq. cbn [cmp pair_ord] in Hpq. unfold lex_cmp in Hpq. cbn [fst snd] in Hpq.
    unfold row_lt. destruct (cmp (phi x) (phi y)) eqn:Ec; [|left; exact Ec|discriminate].
    right. split; [now apply cmp_eq|exact Hpq].
  Qed.
  Lemma pairs_snd_nodup (l : list (F * C)) (phi : C -> F) : NoDup l -> (forall p, In p l -> fst p = phi (snd p)) -> NoDup (map snd l).
  Proof.
    intros Hn H. apply nodup_map_in; auto. intros [f a] [g b] Ha Hb. cbn [snd]. intros ->. apply H in Ha, Hb. cbn [fst snd] in *. congruence.
  Qed.
End SortedPairs.

Notation cdim c := (Z.of_nat (cell_dimension c)).

Section Reduce.
  Context {K : coeffT}.
  Add Field KGR : (F_field K).
  Context {F : ordT} (time : nat -> nat -> option F) (n : nat) (z inf : F).
  Hypothesis HG : filtered_digraph time n z inf.
  Variable fil : dfil F.
  Hypothesis Hfil : forall s t, s < n -> t < n -> fil s t = Ok (time s t).
  Variable E : list (nat * nat).
  Hypothesis HE : forall s t, In (s, t) E -> s < n /\ t < n.
  Hypothesis HEn : NoDup E.
  Notation gen := (generator time).
  Notation birth := (cell_birth time n z E).
  Notation bd := (cell_boundary (K:=K)).
  Notation ebt := (eb time z E).

  (** *** the bases *)
  Definition deg0 : list (F * cell) := map (fun i => (z, Node i)) (seq 0 n).
  Definition deg1 : list (F * cell) :=
    map (fun e : nat * nat => (z, Edge (fst e) (snd e))) E ++
    flat_map (fun i => flat_map (fun j => match (if @set_mem edge_ord (i, j) E then None else match time i j with Some f => Some (f, Edge i j) | None => None end) with Some x => [x] | None => [] end) (seq 0 n)) (seq 0 n).
  Definition gb (k : nat) : list (F * cell) := match k with 0 => @sort_unstable (pair_ord F cell_ord) deg0 | _ => @sort_unstable (pair_ord F cell_ord) deg1 end.
  Definition gbases : list (list (F * cell)) := [gb 0; gb 1].
  Lemma basis_built : build_basis z fil E n = Ok gbases.
  Proof.
    unfold build_basis. rewrite (@flat_mapM_pure _ _ _ (fun i => flat_map (fun j => match (if @set_mem edge_ord (i, j) E then None else match time i j with Some f => Some (f, Edge i j) | None => None end) with Some x => [x] | None => [] end) (seq 0 n))).
    - reflexivity.
    - intros i Hi. apply filter_mapM_pure. intros j Hj. apply in_seq in Hi, Hj. cbv beta.
      destruct (@set_mem edge_ord (i, j) E); [reflexivity|]. rewrite Hfil by lia. reflexivity.
  Qed.
  Lemma deg0_in p : In p deg0 <-> exists s, s < n /\ p = (z, Node s).
  Proof. unfold deg0. rewrite in_map_iff. split; intros (s & H1 & H2); exists s; [apply in_seq in H2; split; [lia|auto]|split; [auto|apply in_seq; lia]]. Qed.
  Lemma deg1_in p : In p deg1 <-> exists s t f, ebt s t = Some f /\ p = (f, Edge s t).
  Proof.
    unfold deg1. rewrite in_app_iff, in_map_iff, in_flat_map. split.
    - intros [([s t] & <- & Hin)|(i & Hi & H)].
      + exists s, t, z. split; auto. apply eb_iff. left. auto.
      + apply in_flat_map in H. destruct H as (j & Hj & H). destruct (@set_mem edge_ord (i, j) E) eqn:Hm; [destruct H|].
        destruct (time i j) as [f|] eqn:Ht; [|destruct H]. destruct H as [<-|[]]. exists i, j, f. split; auto. apply eb_iff. right. split; auto. intros Hin. apply (@set_mem_iff edge_ord) in Hin. exact (eq_true_false_abs _ Hin Hm).
    - intros (s & t & f & He & ->). pose proof (eb_lt HG E HE _ _ He) as [Hs Ht]. unfold eb in He. destruct (@set_mem edge_ord (s, t) E) eqn:Hm.
      + left. exists (s, t). injection He as <-. split; auto. now apply (@set_mem_iff edge_ord).
      + right. exists s. split; [apply in_seq; lia|]. apply in_flat_map. exists t. split; [apply in_seq; lia|].
        match goal with |- context [if ?b then _ else _] => change b with (@set_mem edge_ord (s, t) E) end. rewrite Hm, He. simpl; auto.
  Qed.
  Lemma deg0_nodup : NoDup deg0.
  Proof. apply FinFun.Injective_map_NoDup; [intros a b [=]; auto|apply seq_NoDup]. Qed.
  Lemma deg1_nodup : NoDup deg1.
  Proof.
    apply NoDup_app_intro.
    - apply FinFun.Injective_map_NoDup; auto. intros [a b] [a' b'] [=]. cbn [fst snd] in *. congruence.
    - apply NoDup_flat_map; [apply seq_NoDup| |].
      + intros i _. apply NoDup_flat_map; [apply seq_NoDup| |].
        * intros j _. destruct (@set_mem edge_ord (i, j) E); [constructor|]. destruct (time i j); constructor; auto; constructor.
        * intros j j' x _ _ H1 H2. destruct (@set_mem edge_ord (i, j) E); [destruct H1|]. destruct (time i j); [|destruct H1]. destruct H1 as [<-|[]].
          destruct (@set_mem edge_ord (i, j') E); [destruct H2|]. destruct (time i j'); [|destruct H2]. destruct H2 as [[=]|[]]. auto.
      + intros i i' x _ _ H1 H2. apply in_flat_map in H1, H2. destruct H1 as (j & _ & H1). destruct H2 as (j' & _ & H2).
        destruct (@set_mem edge_ord (i, j) E); [destruct H1|]. destruct (time i j); [|destruct H1]. destruct H1 as [<-|[]].
        destruct (@set_mem edge_ord (i', j') E); [destruct H2|]. destruct (time i' j'); [|destruct H2]. destruct H2 as [[=]|[]]. auto.
    - intros x H1 H2. apply in_map_iff in H1. destruct H1 as ([s t] & <- & Hin). apply in_flat_map in H2. destruct H2 as (i & _ & H2).
      apply in_flat_map in H2. destruct H2 as (j & _ & H2). destruct (@set_mem edge_ord (i, j) E) eqn:Hm; [destruct H2|]. destruct (time i j); [|destruct H2].
      destruct H2 as [H2|[]]. injection H2 as _ <- <-. cbn [fst snd] in Hin. apply (@set_mem_iff edge_ord) in Hin. exact (eq_true_false_abs _ Hin Hm).
  Qed.
  Lemma gb_in k f c : k <= 1 -> (In (f, c) (gb k) <-> cell_dimension c = k /\ birth c f).
  Proof.
    intros Hk. assert (Hp : forall l, In (f, c) (@sort_unstable (pair_ord F cell_ord) l) <-> In (f, c) l).
    { intros l. split; apply Permutation_in; [symmetry|]; apply (@sort_perm (pair_ord F cell_ord)). }
    destruct k as [|[|k]]; [| |lia]; cbn [gb]; rewrite Hp; clear Hp.
    - rewrite deg0_in. split.
      + intros (s & Hs & [= -> ->]). split; auto. split; auto.
      + intros [Hd Hb]. destruct c as [s|s t|X]; try discriminate. destruct Hb as [Hs ->]. eauto.
    - rewrite deg1_in. split.
      + intros (s & t & g & He & [= -> ->]). split; auto. now apply eb_iff.
      + intros [Hd Hb]. destruct c as [s|s t|X]; try discriminate. exists s, t, f. split; auto. now apply eb_iff.
  Qed.
  Lemma gb_sorted k : StronglySorted (@olt (pair_ord F cell_ord)) (gb k).
  Proof. destruct k; apply (@sort_strict (pair_ord F cell_ord)); [apply deg0_nodup|apply deg1_nodup]. Qed.

  Definition gcells (k : nat) : list cell_ord := map snd (gb k).
  Lemma gcells_in k c : k <= 1 -> (In c (gcells k) <-> cell_dimension c = k /\ exists f, birth c f).
  Proof.
    intros Hk. unfold gcells. rewrite in_map_iff. split.
    - intros ([f c'] & <- & H). apply gb_in in H; auto. cbn [snd]. split; [tauto|]. exists f. tauto.
    - intros (Hd & f & Hb). exists (f, c). split; auto. apply gb_in; auto.
  Qed.

  (** any function giving the births *)
  Variable phi : cell -> F.
  Hypothesis Hphi : forall c f, birth c f -> phi c = f.
  Notation phiC := (phi : cell_ord -> F).
  Lemma gb_phi k p : k <= 1 -> In p (gb k) -> fst p = phi (snd p).
  Proof. intros Hk Hp. destruct p as [f c]. apply gb_in in Hp; auto. cbn [fst snd]. symmetry. apply Hphi. tauto. Qed.
  Lemma gcells_before k x y : k <= 1 -> before (gcells k) x y -> row_lt phiC x y.
  Proof. intros Hk. apply (@pairs_before F cell_ord (gb k) phi x y); [apply gb_sorted|]. intros p. apply gb_phi; auto. Qed.
  Lemma gcells_nodup k : k <= 1 -> NoDup (gcells k).
  Proof.
    intros Hk. apply (@pairs_snd_nodup F cell_ord (gb k) phi); [|intros p; apply gb_phi; auto]. apply (@sorted_nodup' (pair_ord F cell_ord)). apply gb_sorted.
  Qed.

  (** *** the coboundary matrix *)
  Variable bm : kmap edge_ord nat.
  Hypothesis Hbm : forall s t : nat, @map_get edge_ord nat (s, t) bm = bridge_of time n s t.
  Variable b : basis cell_ord.
  Notation GC := (grpph_coboundary (K:=K) z inf fil E n bm).
  Notation gd := (fst (matrix_with_basis GC b)).
  Definition GD : fmatrix K rC rC (rev_ord F) := by_ref (reverse_f (by_ref gd)).
  Definition gcol (c : cell) : list (K * cell_ord) := match c with
    | Node s => map row1 (node_col time n z E s)
    | Edge s t => map row2 (edge_col time n inf s t)
    | TwoCell _ => [] end.
  Lemma gcol_ok c f : birth c f -> cell_dimension c <= 1 -> m_col GC c = Ok (gcol c).
  Proof.
    intros Hb Hd. cbn [grpph_coboundary m_col]. unfold grpph_coboundary_column, gcol. destruct c as [s|s t|X].
    - destruct Hb as [Hs _]. rewrite (@node_col_ok K F time n z fil Hfil E s Hs). cbn [bind]. f_equal. apply map_ext. intros [[k c] g]. reflexivity.
    - cbn [cell_birth] in Hb. apply eb_iff in Hb. apply (eb_lt HG E HE) in Hb. rewrite (edge_col_ok HG fil Hfil bm Hbm) by tauto. reflexivity.
    - destruct X; simpl in Hd; lia.
  Qed.
  Lemma gcol_in c k r : In (k, r) (gcol c) -> cell_dimension r = cell_dimension c + 1 /\ exists f, birth r f.
  Proof.
    destruct c as [s|s t|X]; cbn [gcol]; [| |intros []].
    - intros H. apply in_map_iff in H. destruct H as ([[k' c] f] & [= <- <-] & H). apply (node_col_in HG E HE) in H.
      destruct H as [(j & _ & -> & H)|(j & _ & -> & H)]; (split; [reflexivity|]); exists f; cbn [cell_birth snd fst]; now apply eb_iff.
    - intros H. apply in_map_iff in H. destruct H as ([[k' X] f] & [= <- <-] & H). apply (edge_col_gen HG) in H.
      split; [destruct X; reflexivity|]. exists f. exact H.
  Qed.
  Lemma gcol_coef c r f : cell_dimension c <= 1 -> birth r f -> coef (gcol c) (r : cell_ord) = bd r c.
  Proof.
    intros Hd Hr.
    assert (Hz : cell_dimension r <> cell_dimension c + 1 -> coef (gcol c) (r : cell_ord) = f0).
    { intros Hne. destruct (fscalar_dec (coef (gcol c) (r : cell_ord))) as [|Hn]; auto. exfalso. apply coef_in in Hn. destruct Hn as [k Hk]. apply gcol_in in Hk. tauto. }
    destruct c as [s|s t|X].
    - destruct r as [v|x y|Y].
      + rewrite Hz by (simpl; lia). reflexivity.
      + cbn [gcol]. cbn [cell_birth] in Hr. apply eb_iff in Hr. eapply (node_col_coef HG E HE). eauto.
      + rewrite Hz by (destruct Y; simpl; lia). destruct Y; reflexivity.
    - destruct r as [v|x y|Y].
      + rewrite Hz by (simpl; lia). reflexivity.
      + rewrite Hz by (simpl; lia). reflexivity.
      + cbn [gcol]. apply (edge_col_coef HG _ _ Hr).
    - destruct X; simpl in Hd; lia.
  Qed.
  Notation rev_terms l := (map (fun p : K * cell_ord => (fst p, Reverse (snd p))) l).
  Lemma GD_col (c : cell_ord) f : birth c f -> cell_dimension c <= 1 -> m_col GD (Reverse c) = Ok (rev_terms (gcol c)).
  Proof.
    intros Hb Hd. cbn [GD by_ref fm_default m_col reverse_f]. unfold reverse_oracle. cbn [unrev matrix_with_basis fst fm_default m_col].
    rewrite (@gcol_ok c f) by auto. reflexivity.
  Qed.
  Lemma coef_rev' (l : list (K * cell_ord)) (r : cell_ord) : coef (R:=rC) (rev_terms l) (Reverse r) = coef l r.
  Proof.
    induction l as [|[k x] l IH]; auto. cbn [map coef fst snd]. rewrite IH.
    destruct (oeqb_spec (T:=cell_ord) x r) as [->|Hne].
    - rewrite (oeqb_refl (T:=rC)). reflexivity.
    - destruct (oeqb_spec (T:=rC) (Reverse x) (Reverse r)); [congruence|reflexivity].
  Qed.
  Lemma GD_den (c : cell_ord) f (r : cell_ord) g : birth c f -> cell_dimension c <= 1 -> birth r g -> mden (m_col GD) (Reverse c) (Reverse r) = bd r c.
  Proof. intros Hc Hd Hr. unfold mden. rewrite (@GD_col c f) by auto. rewrite coef_rev'. eapply gcol_coef; eauto. Qed.
  Lemma GD_col_in (c : cell_ord) k (r : rC) : In (k, r) (rev_terms (gcol c)) -> cell_dimension (unrev r) = cell_dimension c + 1 /\ exists f, birth (unrev r) f.
  Proof. intros H. apply in_map_iff in H. destruct H as ([k' r'] & [= <- <-] & H). cbn [unrev snd]. eapply gcol_in; eauto. Qed.
  Lemma GD_den_nz (c : cell_ord) f r : birth c f -> cell_dimension c <= 1 -> mden (m_col GD) (Reverse c) r <> f0 ->
    cell_dimension (unrev r) = cell_dimension c + 1 /\ exists g, birth (unrev r) g.
  Proof. intros Hc Hd Hn. unfold mden in Hn. rewrite (@GD_col c f) in Hn by auto. apply coef_in in Hn. destruct Hn as [k Hk]. eapply GD_col_in; eauto. Qed.
  Notation grphi := (rev_filtration phi : rC -> rev_ord F).
  Lemma GD_fil (c : cell_ord) f : birth c f -> m_fil GD (Reverse c) = Ok (grphi (Reverse c)).
  Proof.
    intros Hb. cbn [GD by_ref fm_default m_fil reverse_f unrev matrix_with_basis fst grpph_coboundary].
    rewrite (gfil_ok HG fil Hfil E HE c _ Hb). cbn [bind]. unfold rev_filtration. cbn [unrev]. now rewrite (Hphi c f Hb).
  Qed.

  Definition gblocks : list (list rC) := [rev_basis (gcells 0); rev_basis (gcells 1)].
  Lemma gblock_in k (c : rC) : k <= 1 -> (In c (rev_basis (gcells k)) <-> cell_dimension (unrev c) = k /\ exists f, birth (unrev c) f).
  Proof. intros Hk. rewrite (rev_basis_in' (C:=cell_ord)). now apply gcells_in. Qed.
  Lemma gblocks_in (c : rC) : In c (concat gblocks) <-> cell_dimension (unrev c) <= 1 /\ exists f, birth (unrev c) f.
  Proof.
    destruct c as [c]. cbn [gblocks concat]. rewrite app_nil_r, in_app_iff.
    pose proof (@gblock_in 0 (Reverse c) ltac:(lia)) as B0. pose proof (@gblock_in 1 (Reverse c) ltac:(lia)) as B1. cbn [unrev] in *.
    split.
    - intros [H|H]; [apply B0 in H|apply B1 in H]; destruct H as [H1 H2]; (split; [rewrite H1; lia|exact H2]).
    - intros [H1 H2]. destruct (cell_dimension c) as [|[|]] eqn:Ed; [left; apply B0|right; apply B1|lia]; auto.
  Qed.
  Definition gsplit := reverse_split (cell_split gbases).
  Lemma cell_split_facts (bases : list (list (F * cell))) :
    enumerates (sb_total (cell_split bases)) (concat (map (map snd) bases)) /\
    (forall k l, nth_error bases k = Some l -> exists sub, sb_dim (cell_split bases) k = Ok sub /\ enumerates sub (map snd l)).
  Proof.
    unfold cell_split. destruct (@C39_multi_basis_concatenates cell_ord (map cell_basis bases) (map (map snd) bases)) as (H1 & H2 & H3 & H4).
    - induction bases as [|l bases IH]; simpl; constructor; auto. split; [simpl; now rewrite map_length|].
      intros i c Ei. rewrite nth_error_map in Ei. cbn [cell_basis b_elem]. destruct (nth_error l i) as [p|] eqn:Ep; [|discriminate].
      apply index_Ok in Ep. rewrite Ep. cbn [bind]. simpl in Ei. injection Ei as <-. reflexivity.
    - split; auto. intros k l Hk. apply H3. rewrite nth_error_map, Hk. reflexivity.
  Qed.
  Lemma gsub k : k <= 1 -> exists sub, sb_dim gsplit k = Ok sub /\ enumerates sub (rev_basis (gcells k)).
  Proof.
    intros Hk. unfold gsplit. cbn [reverse_split sb_dim]. destruct (cell_split_facts gbases) as (_ & H3).
    destruct (H3 k (gb k)) as (sub & Es & He).
    { destruct k as [|[|]]; [reflexivity|reflexivity|lia]. }
    rewrite Es. cbn [bind]. eexists. split; [reflexivity|]. apply (C15_reverse_basis He).
  Qed.
  Theorem grpph_block_complex : block_complex grphi GD gsplit [0; 1] gblocks.
  Proof.
    refine (conj _ (conj _ (conj _ (conj _ (conj _ _))))).
    - cbn [gblocks concat]. rewrite app_nil_r. apply NoDup_app_intro; try apply (rev_basis_nodup (C:=cell_ord)); try (apply gcells_nodup; lia).
      intros c H1 H2. apply gblock_in in H1, H2; try lia.
    - constructor; [apply gsub; lia|]. constructor; [apply gsub; lia|constructor].
    - intros [c] Hc. apply gblocks_in in Hc. cbn [unrev] in Hc. destruct Hc as (Hd & f & Hb). unfold GD.
      eapply (@coherent_default K rC rC (rev_ord F)); [exact (GD_col c _ Hb Hd)|].
      intros k [r] Hr. apply GD_col_in in Hr. destruct Hr as (_ & g & Hr). exact (GD_fil r _ Hr).
    - intros blk [x] [y] Hb Hxy. assert (exists k, k <= 1 /\ blk = rev_basis (gcells k)) as (k & Hk & ->).
      { destruct Hb as [<-|[<-|[]]]; [exists 0|exists 1]; split; auto. }
      apply (rev_basis_before (C:=cell_ord) (gcells k)) in Hxy. apply gcells_before in Hxy; auto. apply (rev_row_lt (C:=cell_ord)). exact Hxy.
    - intros pre blk next post Eb c Hc.
      assert (blk = rev_basis (gcells 0) /\ next = rev_basis (gcells 1)) as [-> ->].
      { destruct pre as [|? [|? [|]]]; cbn in Eb; injection Eb; auto; try discriminate; intros; discriminate. }
      apply gblock_in in Hc; auto. destruct c as [c]. cbn [unrev] in Hc. destruct Hc as (Hd & f & Hb). split.
      + intros t k r Et Hr. rewrite (@GD_col c f) in Et by (auto; lia). injection Et as <-. apply GD_col_in in Hr. apply gblock_in; auto. destruct Hr as [Hr1 Hr2]. split; [lia|auto].
      + intros r. destruct (fscalar_dec (lincomb (rev_basis (gcells 1) : list rC) (mden (m_col GD) (Reverse c)) (mden (m_col GD)) r)) as [|Hnz]; auto. exfalso.
        assert (Hr : exists g, birth (unrev r) g).
        { apply lincomb_nonzero in Hnz. destruct Hnz as (e & He & _ & Hn). destruct e as [e]. apply gblock_in in He; auto. cbn [unrev] in He. destruct He as (Hde & h & He).
          apply (@GD_den_nz e h) in Hn; auto; [|lia]. tauto. }
        destruct Hr as (g & Hg). destruct r as [r]. cbn [unrev] in Hg. apply Hnz. unfold lincomb. rewrite (vsum_rev_basis (K:=K) (C:=cell_ord)).
        assert (Hed : forall s t f0, ebt s t = Some f0 -> In (Edge s t) (gcells 1)).
        { intros s t h Hh. apply gcells_in; auto. split; auto. exists h. cbn [cell_birth]. now apply eb_iff. }
        etransitivity; [|apply (@bd_bd K F time n z inf HG E (gcells 1) r g c); auto; now apply gcells_nodup].
        apply vsum_ext. intros e He. apply gcells_in in He; auto. destruct He as (Hde & h & He). rewrite (@GD_den c f e h), (@GD_den e h r g) by (auto; lia). apply (Rmul_comm (F_ring K)).
    - intros pre blk Eb c r Hc Hn Hr. assert (blk = rev_basis (gcells 1)) as ->.
      { destruct pre as [|? [|? [|]]]; cbn in Eb; injection Eb; auto; try discriminate; intros; discriminate. }
      apply gblock_in in Hc; auto. destruct c as [c]. cbn [unrev] in Hc. destruct Hc as (Hd & f & Hb). apply (@GD_den_nz c f) in Hn; auto; [|lia].
      apply gblocks_in in Hr. lia.
  Qed.

  (** *** the same pairs on the boundary side *)
  Variable l : list cell.
  Hypothesis Hl : NoDup l.
  Hypothesis Hin : forall c, In c l <-> exists f, birth c f.
  Hypothesis Hord : graded_order phiC (fun c => cdim c) (l : list cell_ord).
  Notation GDm := (mden (m_col GD)).
  Definition l01 : list cell_ord := filter (fun c => cell_dimension c <=? 1) l.
  Notation lr := (rev_basis l01 : list rC).
  Notation ll := (rev_basis (l : list cell_ord) : list rC).
  Lemma l01_in c : In c l01 <-> cell_dimension c <= 1 /\ exists f, birth c f.
  Proof. unfold l01. rewrite filter_In, Hin, Nat.leb_le. tauto. Qed.
  Lemma glr_in (c : rC) : In c lr <-> cell_dimension (unrev c) <= 1 /\ exists f, birth (unrev c) f.
  Proof. rewrite (rev_basis_in' (C:=cell_ord)). apply l01_in. Qed.
  Lemma gll_in (c : rC) : In c ll <-> exists f, birth (unrev c) f.
  Proof. rewrite (rev_basis_in' (C:=cell_ord)). apply Hin. Qed.
  Lemma glr_nodup : NoDup lr.
  Proof. apply (rev_basis_nodup (C:=cell_ord)). now apply NoDup_filter. Qed.
  Lemma glr_blocks c : In c lr <-> In c (concat gblocks).
  Proof. rewrite glr_in, gblocks_in. reflexivity. Qed.
  Lemma before_filter {A} (p : A -> bool) (m : list A) x y : before (filter p m) x y -> before m x y.
  Proof.
    intros (A1 & B1 & E1 & Em). revert A1 Em. induction m as [|a m IH]; intros A1 Em; cbn [filter] in Em; [destruct A1; discriminate|].
    destruct (p a).
    - destruct A1 as [|a' A1]; cbn in Em; injection Em as -> Em.
      + assert (Hy : In y m) by (assert (In y (filter p m)) by (rewrite Em; apply in_app_iff; simpl; auto); eapply filter_In; eauto).
        apply before_split. exists [], m. auto.
      + destruct (IH A1 Em) as (A2 & B2 & E2 & ->). exists (a' :: A2), B2, E2. reflexivity.
    - destruct (IH A1 Em) as (A2 & B2 & E2 & ->). exists (a :: A2), B2, E2. reflexivity.
  Qed.
  Lemma glr_before blk x y : In blk gblocks -> before blk x y -> before lr x y.
  Proof.
    intros Hb Hxy. assert (exists k, k <= 1 /\ blk = rev_basis (gcells k)) as (k & Hk & ->).
    { destruct Hb as [<-|[<-|[]]]; [exists 0|exists 1]; split; auto. }
    destruct x as [x], y as [y]. apply (rev_basis_before (C:=cell_ord) (gcells k)) in Hxy. apply (rev_basis_before (C:=cell_ord) l01).
    pose proof (before_in Hxy) as [Hy Hx]. apply gcells_in in Hx, Hy; auto.
    pose proof (gcells_before Hk Hxy) as Hrow.
    assert (H1 : In x l01) by (apply l01_in; split; [lia|tauto]). assert (H2 : In y l01) by (apply l01_in; split; [lia|tauto]).
    destruct (@before_total cell_ord l01 y x H2 H1) as [Eq|[H|H]]; auto.
    - exfalso. rewrite Eq in Hrow. destruct Hrow as [H|[_ H]]; eapply olt_irrefl; eauto.
    - exfalso. apply before_filter in H. assert (Hd : cdim x = cdim y) by (destruct Hx as [-> _]; destruct Hy as [-> _]; reflexivity).
      apply (Hord H) in Hd. eapply row_lt_asym; eauto.
  Qed.
  Lemma GD_graded : graded (fun c : rC => cdim (unrev c)) 1 lr GDm.
  Proof.
    intros [c] r Hc Hn. apply glr_in in Hc. cbn [unrev] in *. destruct Hc as (Hd & f & Hb). apply (@GD_den_nz c f) in Hn; auto. destruct Hn as [Hn _]. rewrite Hn. lia.
  Qed.
  Lemma GD_fin x : vzero (lincomb lr x GDm) \/ exists i, leading grphi (lincomb lr x GDm) i.
  Proof. apply leading_exists with (S := row_set (m_col GD) lr). intros r Hr. eapply lincomb_row_set; eauto. Qed.
  Lemma GD_decomposition : exists V, triangular lr V /\ reduced grphi lr (fun j => lincomb lr (V j) GDm).
  Proof.
    destruct (@C31_clearing_decomposition list_heaps K rC (rev_ord F) grphi GD _ _ _ grpph_block_complex
       (S (length (row_set (m_col GD) (concat gblocks))))) as (rc & dg & _ & H & _); [lia|].
    cbv zeta in H. destruct (H lr glr_nodup glr_blocks glr_before) as (H1 & H2 & H3).
    eexists. split; [exact H1|]. intros j k i Hj Hk L1 L2. apply (H2 j k i Hj Hk).
    - eapply leading_ext; [|exact L1]. intros r. symmetry. apply H3. auto.
    - eapply leading_ext; [|exact L2]. intros r. symmetry. apply H3. auto.
  Qed.

  Lemma bd_dim c r : bd c r <> f0 -> cell_dimension c = cell_dimension r + 1.
  Proof. destruct c as [|s t|X], r as [|x y|Y]; try destruct X; cbn; try congruence; auto. Qed.
  Lemma bd_graded : graded (fun c : cell_ord => cdim c) (-1) (l : list cell_ord) (bd : cell_ord -> vec K cell_ord).
  Proof. intros c r _ Hn. apply bd_dim in Hn. lia. Qed.
  Lemma bd_rows (c r : cell_ord) : In c l -> bd c r <> f0 -> In r l.
  Proof.
    intros Hc Hn. apply Hin in Hc. destruct Hc as (f & Hc). destruct (bd_births (K:=K) HG E HE _ _ _ Hc Hn) as (g & Hg & _). apply Hin. eauto.
  Qed.
  (** the reversed coboundary extended by zero to the 2-cells *)
  Definition gext : rC -> vec K rC := fun c r => if cell_dimension (unrev c) <=? 1 then GDm c r else f0.
  Lemma gext_nz (c r : rC) : In c ll -> gext c r <> f0 -> cell_dimension (unrev c) <= 1 /\ cell_dimension (unrev r) = cell_dimension (unrev c) + 1 /\ exists g, birth (unrev r) g.
  Proof.
    intros Hc Hn. unfold gext in Hn. destruct (Nat.leb_spec (cell_dimension (unrev c)) 1) as [Hd|]; [|congruence]. split; auto.
    apply gll_in in Hc. destruct c as [c]. cbn [unrev] in *. destruct Hc as (f & Hc). eapply GD_den_nz; eauto.
  Qed.
  Lemma gext_graded : graded (fun c : rC => cdim (unrev c)) 1 ll gext.
  Proof. intros c r Hc Hn. apply gext_nz in Hn; auto. lia. Qed.
  Lemma gext_fin x : vzero (lincomb ll x gext) \/ exists i, leading grphi (lincomb ll x gext) i.
  Proof.
    apply leading_exists with (S := ll). intros r Hr. apply lincomb_nonzero in Hr. destruct Hr as (c & Hc & _ & Hn).
    apply gll_in. apply gext_nz in Hn; auto. tauto.
  Qed.
  Lemma filter_filter_dim (m : list cell) k : k <= 1 -> filter (fun c => (cdim c =? Z.of_nat k)%Z) (filter (fun c => cell_dimension c <=? 1) m) = filter (fun c => (cdim c =? Z.of_nat k)%Z) m.
  Proof.
    intros Hk. induction m as [|c m IH]; auto. cbn [filter]. destruct (Nat.leb_spec (cell_dimension c) 1); cbn [filter].
    - now rewrite IH.
    - destruct (Z.eqb_spec (cdim c) (Z.of_nat k)); [lia|auto].
  Qed.
  Lemma filter_rev' {A} (p : A -> bool) (m : list A) : filter p (rev m) = rev (filter p m).
  Proof.
    induction m as [|a m IH]; auto. cbn [rev filter]. rewrite filter_app, IH. cbn [filter]. destruct (p a); [reflexivity|now rewrite app_nil_r].
  Qed.
  Lemma filter_rev_basis {A} (p : A -> bool) (m : list A) : filter (fun c => p (unrev c)) (rev_basis m) = rev_basis (filter p m).
  Proof.
    unfold rev_basis. rewrite <- filter_rev'. induction (rev m) as [|a r IH]; auto. cbn [map filter unrev]. rewrite IH. destruct (p a); reflexivity.
  Qed.
  Lemma gext_pairs (i j : rC) : In j lr -> (is_pair grphi ll gext i j <-> is_pair grphi lr GDm i j).
  Proof.
    intros Hj. assert (Hj' : In j ll) by (apply glr_in in Hj; apply gll_in; tauto).
    assert (Hd : cell_dimension (unrev j) <= 1) by (apply glr_in in Hj; tauto).
    rewrite (@pair_filter K (rev_ord F) rC grphi gext (fun c : rC => cdim (unrev c)) 1%Z ll i j) by (auto using gext_graded, gext_fin; apply (rev_basis_nodup (C:=cell_ord)); auto).
    rewrite (@pair_filter K (rev_ord F) rC grphi GDm (fun c : rC => cdim (unrev c)) 1%Z lr i j) by (auto using GD_graded, GD_fin, glr_nodup).
    assert (Ef : filter (fun c : rC => (cdim (unrev c) =? cdim (unrev j))%Z) lr = filter (fun c : rC => (cdim (unrev c) =? cdim (unrev j))%Z) ll).
    { etransitivity; [exact (filter_rev_basis (fun c : cell => (cdim c =? cdim (unrev j))%Z) l01)|].
      etransitivity; [|symmetry; exact (filter_rev_basis (fun c : cell => (cdim c =? cdim (unrev j))%Z) l)].
      unfold l01. f_equal. apply filter_filter_dim. exact Hd. }
    rewrite Ef. apply is_pair_ext. intros c Hc r. apply filter_In in Hc. destruct Hc as [Hc Ec]. apply Z.eqb_eq in Ec. unfold gext.
    destruct (Nat.leb_spec (cell_dimension (unrev c)) 1); [reflexivity|lia].
  Qed.
  Lemma gext_transpose (c r : cell_ord) : In c l -> In r l -> gext (Reverse r : rC) (Reverse c : rC) = bd c r.
  Proof.
    intros Hc Hr. apply Hin in Hc, Hr. destruct Hc as (f & Hc). destruct Hr as (g & Hr). unfold gext. cbn [unrev].
    destruct (Nat.leb_spec (cell_dimension r) 1) as [Hd|Hd]; [eapply GD_den; eauto|].
    destruct (fscalar_dec (bd c r)) as [->|Hn]; auto. exfalso. apply bd_dim in Hn. destruct c; simpl in *; lia.
  Qed.
  Lemma grpph_pairs (i j : cell_ord) : (In j l /\ is_pair phiC (l : list cell_ord) (bd : cell_ord -> vec K cell_ord) i j) <->
    (In (Reverse i : rC) lr /\ is_pair grphi lr GDm (Reverse j : rC) (Reverse i : rC)).
  Proof.
    destruct (@C34_duality_intrinsic K cell_ord F phi l bd gext) with (g := fun c : cell_ord => cdim c) (e := (-1)%Z) as [HP _];
      [exact Hl|exact bd_rows| |exact gext_transpose|exact bd_graded|exact Hord|].
    { intros c r Hc Hn. apply gll_in. apply gext_nz in Hn; auto. tauto. }
    split.
    - intros [Hj Hp]. assert (Hi : In i l) by (eapply (@pair_rows_in K F cell_ord); [|exact Hp]; intros c r; apply bd_rows).
      pose proof Hp as Hp'. apply (HP i j Hi Hj) in Hp'.
      assert (Hlr : In (Reverse i : rC) lr).
      { apply glr_in. cbn [unrev]. split; [|apply Hin; auto].
        assert (Hg := @pair_grade K F cell_ord phi l bd ltac:(intros x; eapply (@primal_fin K F cell_ord); intros c r; apply bd_rows) (fun c : cell_ord => cdim c) (-1)%Z bd_graded i j Hp).
        cbv beta in Hg. assert (Hj2 : cell_dimension j <= 2) by (destruct j; simpl; lia). revert Hg Hj2. generalize (cell_dimension i) (cell_dimension j). intros; lia. }
      split; auto. apply gext_pairs; auto.
    - intros [Hi Hp]. assert (Hi' : In i l) by (apply glr_in in Hi; apply Hin; tauto).
      assert (Hj : In j l).
      { pose proof Hp as (_ & (x & _ & [Hn _]) & _). apply lincomb_nonzero in Hn. destruct Hn as (c & Hc & _ & Hn). apply glr_in in Hc. destruct c as [c]. cbn [unrev] in Hc.
        destruct Hc as (Hd & f & Hc). apply (@GD_den_nz c f) in Hn; auto. apply Hin. tauto. }
      split; auto. apply (HP i j Hi' Hj). apply gext_pairs; auto.
  Qed.
  Lemma grpph_essential (c : cell_ord) : is_essential grphi lr GDm (Reverse c : rC) <->
    cell_dimension c <= 1 /\ is_essential phiC (l : list cell_ord) (bd : cell_ord -> vec K cell_ord) c.
  Proof.
    rewrite (@ess_iff K F cell_ord phi l bd Hl (fun c r => bd_rows c r)).
    destruct GD_decomposition as (V & HV & HR). unfold is_essential. rewrite glr_in. cbn [unrev].
    assert (Hpos : In (Reverse c : rC) lr -> (is_positive lr GDm (Reverse c : rC) <-> forall i, ~ is_pair grphi lr GDm i (Reverse c : rC))).
    { intros Hc. split.
      - intros H i. exact (@positive_not_death K (rev_ord F) rC grphi lr GDm i (Reverse c) H).
      - intros H. destruct (@positive_or_death K (rev_ord F) rC grphi lr GDm V glr_nodup HV HR GD_fin (Reverse c) Hc) as [|(i & Hi)]; auto. exfalso. eapply H; eauto. }
    split.
    - intros ((Hd & Hb) & Hp & Hn). assert (Hc : In (Reverse c : rC) lr) by (apply glr_in; auto). split; auto. split; [now apply Hin|]. split.
      + intros k Hk Hkc. assert (Hcl : In c l) by (now apply Hin). destruct (proj1 (grpph_pairs k c) (conj Hcl Hkc)) as [H1 H2]. eapply Hn; eauto.
      + intros k Hk Hkc. destruct (proj1 (grpph_pairs c k) (conj Hk Hkc)) as [H1 H2]. eapply Hpos; eauto.
    - intros (Hd & Hcl & H1 & H2). pose proof Hcl as Hb. apply Hin in Hb. assert (Hc : In (Reverse c : rC) lr) by (apply glr_in; auto). split; auto. split.
      + apply Hpos; auto. intros [k] Hk. destruct (proj2 (grpph_pairs c k) (conj Hc Hk)) as [H3 H4]. eapply H2; eauto.
      + intros [k] Hk Hp. destruct (proj2 (grpph_pairs k c) (conj Hk Hp)) as [H3 H4]. apply (H1 k); auto. apply glr_in in Hk. apply Hin. tauto.
  Qed.
  Lemma GD_rows : length (row_set (m_col GD) (concat gblocks)) <= length l.
  Proof.
    rewrite <- (map_length (@Reverse cell) l). apply NoDup_incl_length; [apply NoDup_nodup|].
    intros r Hr. unfold row_set in Hr. apply nodup_In in Hr. apply in_flat_map in Hr. destruct Hr as ([c] & Hc & Hr).
    apply gblocks_in in Hc. cbn [unrev] in Hc. destruct Hc as (Hd & f & Hc). rewrite (@GD_col c f) in Hr by auto.
    apply in_map_iff in Hr. destruct Hr as ([k r'] & <- & Hr). apply GD_col_in in Hr. destruct r' as [r']. cbn [snd unrev] in *. apply (in_map (@Reverse cell)). apply Hin. tauto.
  Qed.
End Reduce.
