(** The path-homology matrices as a filtered complex: filtration values, bases, products. *)
From Verif Require Import Base Fields FieldsFacts Spec LinAlg Columns Matrices SpecMat MatricesFacts Reduction Rips GrpphCells Grpph SpecGrpph GrpphFacts GrpphColumns StandardResults Graded Duality RipsBasis PropRips RipsComplex.
From Coq Require Import Ring_theory Sorted Lia.
Set Implicit Arguments.

Notation rC := (rev_ord cell_ord).

Section Complex.
  Context {K : coeffT}.
  Add Field KGX : (F_field K).
  Context {F : ordT} (time : nat -> nat -> option F) (n : nat) (z inf : F).
  Hypothesis HG : filtered_digraph time n z inf.
  Variable fil : dfil F.
  Hypothesis Hfil : forall s t, s < n -> t < n -> fil s t = Ok (time s t).
  Variable E : list (nat * nat).
  Hypothesis HE : forall s t, In (s, t) E -> s < n /\ t < n.
  Notation tp := (path_time time).
  Notation gen := (generator time).
  Notation birth := (cell_birth time n z E).
  Notation bd := (cell_boundary (K:=K)).

  (** *** births *)
  Definition eb (s t : nat) : option F := if @set_mem edge_ord (s, t) E then Some z else time s t.
  Lemma eb_iff s t f : eb s t = Some f <-> edge_birth time z E s t f.
  Proof.
    unfold eb, edge_birth. pose proof (@set_mem_iff edge_ord (s, t) E) as H. destruct (@set_mem edge_ord (s, t) E).
    - assert (Hin : In (s, t) E) by now apply H. split; [intros [= <-]; auto|]. intros [[_ ->]|[Hn _]]; tauto.
    - assert (Hin : ~ In (s, t) E) by (intros Hin; apply H in Hin; discriminate). split; [auto|]. intros [[Hi _]|[_ Ht]]; tauto.
  Qed.
  Lemma eb_lt s t f : eb s t = Some f -> s < n /\ t < n.
  Proof.
    intros H. apply eb_iff in H. destruct H as [[H _]|[_ H]]; [auto|]. exact (time_lt HG _ _ H).
  Qed.
  Lemma eb_time s t f : time s t = Some f -> exists g, eb s t = Some g /\ ole g f.
  Proof.
    intros H. unfold eb. destruct (@set_mem edge_ord (s, t) E); [|exists f; split; auto; apply ole_refl]. exists z. split; auto. apply HG in H. tauto.
  Qed.
  Lemma gen_times X f : gen X f -> forall g, gen X g -> f = g.
  Proof.
    intros H. assert (Hlt : forall (x y : F), olt x y -> ole y x -> False) by (intros x y H1 H2; eapply olt_not_le; eauto).
    destruct H as [a b f Ef|a b c f h Hac Ef Eh Hle|a b c f Hac Hp Ef|a b b' c f Hac Hp Hb Hne Ef]; intros g Hg.
    - inversion Hg; subst. congruence.
    - apply (gen_triangle_inv (time:=time)) in Hg. destruct Hg as (_ & [(h' & E1 & E2 & H')|(Hp & E1)]); [congruence|].
      exfalso. destruct Hp as [(f' & E' & Hf') _]. assert (f' = f) as -> by congruence. assert (h = g) as -> by congruence. eapply Hlt; eauto.
    - apply (gen_triangle_inv (time:=time)) in Hg. destruct Hg as (_ & [(h' & E1 & E2 & H')|(_ & E1)]); [|congruence].
      exfalso. destruct Hp as [(f' & E' & Hf') _]. assert (f' = g) as -> by congruence. assert (h' = f) as -> by congruence. eapply Hlt; eauto.
    - apply (gen_square_inv (time:=time)) in Hg. destruct Hg as (_ & _ & _ & _ & E1). congruence.
  Qed.
  Lemma birth_fun c f g : birth c f -> birth c g -> f = g.
  Proof.
    destruct c as [s|s t|X]; cbn [cell_birth].
    - intros [_ ->] [_ ->]. auto.
    - rewrite <- !eb_iff. congruence.
    - intros H1 H2. exact (gen_times H1 H2).
  Qed.
  Theorem gfil_ok c f : birth c f -> grpph_filtration_value z fil E c = Ok f.
  Proof.
    destruct c as [s|s t|X]; cbn [cell_birth grpph_filtration_value].
    - intros [_ ->]. auto.
    - intros H. pose proof (proj2 (eb_iff _ _ _) H) as H'. pose proof (eb_lt _ _ H') as [Hs Ht]. unfold eb in H'.
      change (@set_mem edge_ord (s, t) E) with (@set_mem edge_ord (s, t) E) in *. destruct (@set_mem edge_ord (s, t) E); [congruence|].
      rewrite Hfil by auto. cbn [bind]. rewrite H'. reflexivity.
    - intros H. destruct H as [a b f Ef|a b c f h Hac Ef Eh Hle|a b c f Hac Hp Ef|a b b' c f Hac Hp Hb Hne Ef].
      + pose proof (path_lt HG _ _ _ Ef). rewrite (@two_path_time_ok F time n fil Hfil) by tauto. cbn [bind]. rewrite Ef. reflexivity.
      + pose proof (path_lt HG _ _ _ Ef). rewrite (@two_path_time_ok F time n fil Hfil) by tauto. cbn [bind]. rewrite Ef. cbn [unwrap bind].
        rewrite Hfil by tauto. cbn [bind]. rewrite Eh. cbn [unwrap bind]. f_equal. now apply omax_eq_l.
      + destruct Hp as [(f' & E' & Hf') _]. pose proof (path_lt HG _ _ _ E'). rewrite (@two_path_time_ok F time n fil Hfil) by tauto. cbn [bind]. rewrite E'. cbn [unwrap bind].
        rewrite Hfil by tauto. cbn [bind]. rewrite Ef. cbn [unwrap bind]. f_equal. apply omax_eq_r. apply olt_le. auto.
      + destruct Hp as [(f' & E' & Hf') Hmin]. pose proof (path_lt HG _ _ _ E'). pose proof (path_lt HG _ _ _ Ef).
        rewrite !(@two_path_time_ok F time n fil Hfil) by tauto. cbn [bind]. rewrite E'. cbn [unwrap bind]. rewrite Ef. cbn [unwrap bind]. f_equal. apply omax_eq_r.
        destruct (Hmin _ _ _ E' Ef) as [H1|[-> _]]; [now apply olt_le|apply ole_refl].
  Qed.

  (** *** the boundary *)
  Definition edelta (x y : nat) : vec K cell := fun r => match r with Edge s t => delta ((x =? s) && (y =? t)) | _ => f0 end.
  Lemma edelta_nz x y r : edelta x y r <> f0 -> r = Edge x y.
  Proof.
    destruct r as [|s t|]; cbn [edelta]; try congruence. unfold delta. destruct (Nat.eqb_spec x s) as [->|]; cbn [andb]; [|congruence].
    destruct (Nat.eqb_spec y t) as [->|]; congruence.
  Qed.
  Lemma edelta_same x y : edelta x y (Edge x y) = f1.
  Proof. cbn [edelta]. now rewrite !Nat.eqb_refl. Qed.
  (** the boundary of a generator as a combination of edges *)
  Lemma bd_two X f r : gen X f -> bd (TwoCell X) r = match X with
    | DoubleEdge a b => fadd (edelta a b r) (edelta b a r)
    | DirectedTriangle a b c => fadd (fsub (edelta b c r) (edelta a c r)) (edelta a b r)
    | LongSquare a b c d => fsub (fadd (edelta c d r) (edelta a c r)) (fadd (edelta b d r) (edelta a b r))
    end.
  Proof.
    intros HX. pose proof (gen_ends HG HX) as He. destruct X as [a b|a b c|a b c d]; destruct r as [v|s t|Y]; cbn [cell_boundary edelta]; unfold path_boundary; try ring.
    - rewrite Nat.eqb_refl. ring.
    - destruct (Nat.eqb_spec a c); [exfalso; tauto|ring].
  Qed.
  Lemma path_births a b c f : tp a b c = Some f -> exists f1 f2, eb a b = Some f1 /\ ole f1 f /\ eb b c = Some f2 /\ ole f2 f.
  Proof.
    intros H. apply (@path_Some F time) in H. destruct H as (g1 & g2 & E1 & E2 & ->).
    destruct (eb_time E1) as (f1 & H1 & L1). destruct (eb_time E2) as (f2 & H2 & L2). exists f1, f2.
    split; auto. split; [eapply ole_trans; [exact L1|apply omax_le_l]|]. split; auto. eapply ole_trans; [exact L2|apply omax_le_r].
  Qed.
  (** every edge of a generator appears no later than the generator *)
  Lemma gen_faces X f : gen X f -> forall x y, bd (TwoCell X) (Edge x y) <> f0 -> exists g, eb x y = Some g /\ ole g f.
  Proof.
    intros HX x y Hn. rewrite (@bd_two X f) in Hn by auto.
    assert (Hd : forall a b, edelta a b (Edge x y) <> f0 -> (exists g, eb a b = Some g /\ ole g f) -> exists g, eb x y = Some g /\ ole g f).
    { intros a b H (g & Hg). apply edelta_nz in H. injection H as -> ->. eauto. }
    assert (Hsum : forall u v : option K, fadd u v <> f0 -> u <> f0 \/ v <> f0).
    { intros u v H. destruct (fscalar_dec u) as [->|]; auto; destruct (fscalar_dec v) as [->|]; auto; exfalso; apply H; ring. }
    assert (Hdif : forall u v : option K, fsub u v <> f0 -> u <> f0 \/ v <> f0).
    { intros u v H. destruct (fscalar_dec u) as [->|]; auto; destruct (fscalar_dec v) as [->|]; auto; exfalso; apply H; ring. }
    assert (HP : forall a b c h, tp a b c = Some h -> ole h f -> (exists g, eb a b = Some g /\ ole g f) /\ exists g, eb b c = Some g /\ ole g f).
    { intros a b c h Hp Hle. apply path_births in Hp. destruct Hp as (f1 & f2 & E1 & L1 & E2 & L2). split; eexists; (split; [eassumption|eapply ole_trans; eauto]). }
    destruct HX as [a b f Ef|a b c f h Hac Ef Eh Hle|a b c f Hac Hp Ef|a b b' c f Hac Hp Hb Hne Ef].
    - destruct (HP _ _ _ _ Ef (ole_refl f)) as [H1 H2]. apply Hsum in Hn. destruct Hn as [Hn|Hn]; eauto.
    - destruct (HP _ _ _ _ Ef (ole_refl f)) as [H1 H2]. apply Hsum in Hn. destruct Hn as [Hn|Hn]; eauto. apply Hdif in Hn. destruct Hn as [Hn|Hn]; eauto.
      apply (Hd _ _ Hn). destruct (eb_time Eh) as (g & Hg & L). exists g. split; auto. eapply ole_trans; eauto.
    - destruct Hp as [(f' & E' & Hf') _]. destruct (HP _ _ _ _ E' (olt_le (Hf' _ Ef))) as [H1 H2].
      apply Hsum in Hn. destruct Hn as [Hn|Hn]; eauto. apply Hdif in Hn. destruct Hn as [Hn|Hn]; eauto. apply (Hd _ _ Hn). apply eb_time in Ef. exact Ef.
    - destruct Hp as [(f' & E' & Hf') Hmin]. assert (Hle : ole f' f) by (destruct (Hmin _ _ _ E' Ef) as [H1|[-> _]]; [now apply olt_le|apply ole_refl]).
      destruct (HP _ _ _ _ Ef (ole_refl f)) as [H1 H2]. destruct (HP _ _ _ _ E' Hle) as [H3 H4].
      apply Hdif in Hn. destruct Hn as [Hn|Hn]; apply Hsum in Hn; destruct Hn as [Hn|Hn]; eauto.
  Qed.
  Lemma bd_births c f r : birth c f -> bd c r <> f0 -> exists g, birth r g /\ ole g f.
  Proof.
    intros Hc Hn. destruct c as [s|s t|X].
    - destruct r; cbn in Hn; congruence.
    - destruct r as [v|x y|Y]; cbn [cell_boundary] in Hn; try congruence. cbn [cell_birth] in *. pose proof (proj2 (eb_iff _ _ _) Hc) as H.
      exists z. assert (Hz : ole z f) by (destruct Hc as [[_ ->]|[_ Ht]]; [apply ole_refl|apply HG in Ht; tauto]).
      split; auto. split; auto. apply eb_lt in H. destruct (Nat.eqb_spec t v) as [<-|]; [tauto|]. destruct (Nat.eqb_spec s v) as [<-|]; [tauto|].
      exfalso. apply Hn. cbn [delta]. ring.
    - destruct r as [v|x y|Y].
      + exfalso. apply Hn. destruct X; reflexivity.
      + destruct (gen_faces Hc _ _ Hn) as (g & Hg & L). exists g. split; auto. now apply eb_iff.
      + exfalso. apply Hn. destruct X; reflexivity.
  Qed.
  (** the boundary of the boundary vanishes, summed over any list of cells containing the edges *)
  Lemma vsum_edelta (L : list cell) x y (w : vec K cell) : NoDup L -> In (Edge x y) L ->
    vsum L (fun e => fmul (edelta x y e) (w e)) = w (Edge x y).
  Proof.
    intros HL Hin. rewrite (@vsum_single K cell L _ (Edge x y) HL Hin).
    - rewrite edelta_same. ring.
    - intros e _ Hne. destruct (fscalar_dec (edelta x y e)) as [->|Hz]; [ring|]. apply edelta_nz in Hz. congruence.
  Qed.
  Lemma eb_in_births (L : list cell) : (forall s t f, eb s t = Some f -> In (Edge s t) L) -> forall X f, gen X f -> 
    match X with
    | DoubleEdge a b => In (Edge a b) L /\ In (Edge b a) L
    | DirectedTriangle a b c => In (Edge a b) L /\ In (Edge b c) L /\ In (Edge a c) L
    | LongSquare a b c d => In (Edge a b) L /\ In (Edge b d) L /\ In (Edge a c) L /\ In (Edge c d) L
    end.
  Proof.
    intros HL X f HX.
    assert (HP : forall a b c h, tp a b c = Some h -> In (Edge a b) L /\ In (Edge b c) L).
    { intros a b c h Hp. apply path_births in Hp. destruct Hp as (f1 & f2 & E1 & _ & E2 & _). split; eapply HL; eauto. }
    assert (HT : forall a c h, time a c = Some h -> In (Edge a c) L).
    { intros a c h Hh. apply eb_time in Hh. destruct Hh as (g & Hg & _). eauto. }
    destruct HX as [a b f Ef|a b c f h Hac Ef Eh Hle|a b c f Hac Hp Ef|a b b' c f Hac Hp Hb Hne Ef].
    - eapply HP; eauto.
    - destruct (HP _ _ _ _ Ef). eauto.
    - destruct Hp as [(f' & E' & Hf') _]. destruct (HP _ _ _ _ E'). eauto.
    - destruct Hp as [(f' & E' & Hf') _]. destruct (HP _ _ _ _ E'). destruct (HP _ _ _ _ Ef). auto.
  Qed.
  Lemma bd_bd_two (L : list cell) X f r : NoDup L -> (forall s t f, eb s t = Some f -> In (Edge s t) L) -> gen X f ->
    vsum L (fun e => fmul (bd (TwoCell X) e) (bd e r)) = f0.
  Proof.
    intros HL Hin HX. pose proof (eb_in_births L Hin HX) as He.
    rewrite (@vsum_ext K cell _ _ (fun e => fmul (match X with
      | DoubleEdge a b => fadd (edelta a b e) (edelta b a e)
      | DirectedTriangle a b c => fadd (fsub (edelta b c e) (edelta a c e)) (edelta a b e)
      | LongSquare a b c d => fsub (fadd (edelta c d e) (edelta a c e)) (fadd (edelta b d e) (edelta a b e))
      end) (bd e r))) by (intros e _; f_equal; eapply bd_two; eauto).
    destruct X as [a b|a b c|a b c d].
    - transitivity (fadd (vsum L (fun e => fmul (edelta a b e) (bd e r))) (vsum L (fun e => fmul (edelta b a e) (bd e r)))).
      { rewrite <- vsum_add. apply vsum_ext. intros e _. ring. }
      rewrite !vsum_edelta by tauto. destruct r; cbn [cell_boundary]; ring.
    - transitivity (fadd (fsub (vsum L (fun e => fmul (edelta b c e) (bd e r))) (vsum L (fun e => fmul (edelta a c e) (bd e r)))) (vsum L (fun e => fmul (edelta a b e) (bd e r)))).
      { rewrite <- vsum_sub, <- vsum_add. apply vsum_ext. intros e _. ring. }
      rewrite !vsum_edelta by tauto. destruct r; cbn [cell_boundary]; ring.
    - transitivity (fsub (fadd (vsum L (fun e => fmul (edelta c d e) (bd e r))) (vsum L (fun e => fmul (edelta a c e) (bd e r))))
                         (fadd (vsum L (fun e => fmul (edelta b d e) (bd e r))) (vsum L (fun e => fmul (edelta a b e) (bd e r))))).
      { rewrite <- !vsum_add, <- vsum_sub. apply vsum_ext. intros e _. ring. }
      rewrite !vsum_edelta by tauto. destruct r; cbn [cell_boundary]; ring.
  Qed.
  Lemma bd_bd (L : list cell) c f r : NoDup L -> (forall s t f, eb s t = Some f -> In (Edge s t) L) -> birth c f ->
    vsum L (fun e => fmul (bd c e) (bd e r)) = f0.
  Proof.
    intros HL Hin Hc. destruct c as [s|s t|X].
    - apply vsum_0. intros e _. cbn [cell_boundary]. ring.
    - apply vsum_0. intros e _. destruct e as [v|x y|Y]; cbn [cell_boundary]; ring.
    - eapply bd_bd_two; eauto.
  Qed.

  (** the model's boundary columns *)
  Lemma boundary_column_coef c f r : birth c f -> mden (grpph_boundary_column (K:=K)) c r = bd c r.
  Proof.
    intros Hc. unfold mden, grpph_boundary_column.
    assert (Hco : forall (k : K) x y l, coef ((k, Edge x y : cell_ord) :: l) r = fadd (fmul (Some k) (edelta x y r)) (coef l r)).
    { intros k x y l. cbn [coef]. destruct (oeqb_spec (T:=cell_ord) (Edge x y) r) as [<-|Hne].
      - rewrite edelta_same. ring.
      - destruct (fscalar_dec (edelta x y r)) as [->|Hz]; [ring|]. apply edelta_nz in Hz. congruence. }
    change (Some (k_one : K)) with (f1 : option K) in *.
    destruct c as [s|s t|X].
    - reflexivity.
    - assert (Hcn : forall (k : K) x l, coef ((k, Node x : cell_ord) :: l) r = fadd (fmul (Some k) (match r with Node v => delta (x =? v) | _ => f0 end)) (coef l r)).
      { intros k x l. cbn [coef]. destruct (oeqb_spec (T:=cell_ord) (Node x) r) as [<-|Hne].
        - rewrite Nat.eqb_refl. cbn [delta]. ring.
        - destruct r as [v|x' y'|Y]; try ring. destruct (Nat.eqb_spec x v) as [->|]; [congruence|]. cbn [delta]. ring. }
      rewrite !Hcn, !k_neg_f. cbn [coef]. change (Some (k_one : K)) with (f1 : option K). destruct r as [v|x y|Y]; cbn [cell_boundary]; ring.
    - rewrite (@bd_two X f) by auto. destruct X as [a b|a b c|a b c d]; rewrite !Hco; try rewrite !k_neg_f; cbn [coef]; change (Some (k_one : K)) with (f1 : option K); ring.
  Qed.

  (** *** columns of nodes *)
  Definition node_col (s : nat) : list (K * cell * F) :=
    flat_map (fun j => match (match eb s j with Some f => Some (k_neg k_one, Edge s j, f) | None => None end) with Some x => [x] | None => [] end) (seq 0 n) ++
    flat_map (fun j => match (match eb j s with Some f => Some (k_one, Edge j s, f) | None => None end) with Some x => [x] | None => [] end) (seq 0 n).
  Lemma node_col_ok s : s < n -> node_total_coboundary z fil E n s = Ok (node_col s).
  Proof.
    intros Hs. unfold node_total_coboundary, node_col.
    rewrite (@filter_mapM_pure _ _ _ (fun j => match eb s j with Some f => Some (k_neg k_one : K, Edge s j, f) | None => None end)).
    2:{ intros j Hj. apply in_seq in Hj. unfold eb. cbv beta. destruct (@set_mem edge_ord (s, j) E) eqn:Hm; (match goal with |- (if ?b then _ else _) = _ => change b with (@set_mem edge_ord (s, j) E) end; rewrite Hm); [reflexivity|rewrite Hfil by lia; reflexivity]. }
    cbn [bind].
    rewrite (@filter_mapM_pure _ _ _ (fun j => match eb j s with Some f => Some (k_one : K, Edge j s, f) | None => None end)).
    2:{ intros j Hj. apply in_seq in Hj. unfold eb. cbv beta. destruct (@set_mem edge_ord (j, s) E) eqn:Hm; (match goal with |- (if ?b then _ else _) = _ => change b with (@set_mem edge_ord (j, s) E) end; rewrite Hm); [reflexivity|rewrite Hfil by lia; reflexivity]. }
    reflexivity.
  Qed.
  Lemma node_col_in s k c f : In (k, c, f) (node_col s) <->
    (exists j, k = k_neg k_one /\ c = Edge s j /\ eb s j = Some f) \/ (exists j, k = k_one /\ c = Edge j s /\ eb j s = Some f).
  Proof.
    unfold node_col. rewrite in_app_iff, !in_flat_map. split.
    - intros [(j & _ & H)|(j & _ & H)]; [left; destruct (eb s j) eqn:He|right; destruct (eb j s) eqn:He]; try (destruct H; fail); destruct H as [H|[]]; injection H as <- <- <-; eauto.
    - intros [(j & -> & -> & H)|(j & -> & -> & H)]; [left|right]; exists j; rewrite H; (split; [apply in_seq; apply eb_lt in H; lia|now left]).
  Qed.
  Definition row1 (p : K * cell * F) : K * cell_ord := (fst (fst p), snd (fst p) : cell_ord).
  Lemma node_col_coef s x y f : eb x y = Some f -> coef (map row1 (node_col s)) (Edge x y : cell_ord) = bd (Edge x y) (Node s).
  Proof.
    intros H. pose proof (eb_lt _ _ H) as [Hx Hy]. unfold node_col. rewrite map_app, coef_app.
    assert (Hfl : forall (g : nat -> list (K * cell * F)) l, coef (map row1 (flat_map g l)) (Edge x y : cell_ord) = vsum l (fun a => coef (map row1 (g a)) (Edge x y : cell_ord))).
    { intros g l. rewrite <- coef_flat_map. f_equal. induction l as [|a l IH]; cbn [flat_map map]; auto. now rewrite map_app, IH. }
    rewrite !Hfl.
    rewrite (@vsum_single K nat (seq 0 n) (fun a => coef (map row1 _) _) y); [|apply seq_NoDup|apply in_seq; lia|].
    2:{ intros j _ Hj. destruct (eb s j); [|reflexivity]. cbn [map row1 fst snd coef]. destruct (oeqb_spec (T:=cell_ord) (Edge s j) (Edge x y)) as [[= _ ->]|]; [congruence|reflexivity]. }
    rewrite (@vsum_single K nat (seq 0 n) (fun a => coef (map row1 _) _) x); [|apply seq_NoDup|apply in_seq; lia|].
    2:{ intros j _ Hj. destruct (eb j s); [|reflexivity]. cbn [map row1 fst snd coef]. destruct (oeqb_spec (T:=cell_ord) (Edge j s) (Edge x y)) as [[= -> _]|]; [congruence|reflexivity]. }
    assert (H1 : coef (map row1 match (match eb s y with Some f => Some (k_neg k_one, Edge s y, f) | None => None end) with Some x => [x] | None => [] end) (Edge x y : cell_ord) = fopp (delta (x =? s) : option K)).
    { destruct (Nat.eqb_spec x s) as [->|Hn].
      - rewrite H. cbn [map row1 fst snd coef]. rewrite oeqb_refl, k_neg_f. cbn [delta]. change (Some (k_one : K)) with (f1 : option K). ring.
      - destruct (eb s y); cbn [map row1 fst snd coef]; [|cbn [delta]; ring]. destruct (oeqb_spec (T:=cell_ord) (Edge s y) (Edge x y)) as [[= ->]|]; [congruence|]. cbn [delta]. ring. }
    assert (H2 : coef (map row1 match (match eb x s with Some f => Some (k_one, Edge x s, f) | None => None end) with Some x => [x] | None => [] end) (Edge x y : cell_ord) = (delta (y =? s) : option K)).
    { destruct (Nat.eqb_spec y s) as [->|Hn].
      - rewrite H. cbn [map row1 fst snd coef]. rewrite oeqb_refl. cbn [delta]. change (Some (k_one : K)) with (f1 : option K). ring.
      - destruct (eb x s); cbn [map row1 fst snd coef]; [|cbn [delta]; ring]. destruct (oeqb_spec (T:=cell_ord) (Edge x s) (Edge x y)) as [[= ->]|]; [congruence|]. cbn [delta]. ring. }
    rewrite H1, H2. cbn [cell_boundary]. ring.
  Qed.
End Complex.
