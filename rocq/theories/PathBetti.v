(** Cycles and boundaries of the listed cells are the cycles and boundaries of path homology. *)
From Verif Require Import Base Fields FieldsFacts Spec LinAlg Columns ColumnsFacts Matrices SpecMat MatricesFacts Reduction Graded StandardResults Duality GrpphCells Grpph SpecGrpph SpecPath SpecPH GrpphFacts GrpphColumns GrpphComplex GrpphReduce GrpphInvolution Persistence ClearingProofs RipsPersistence BettiUnique PathBasis.
From Coq Require Import Ring Field Ring_theory Permutation Lia.
Set Implicit Arguments.

Section Transport.
  Context {K : coeffT} {F : ordT}.
  Add Field KFPT : (F_field K).
  Variables (time : nat -> nat -> option F) (n : nat) (z inf : F) (E : list (nat * nat)).
  Hypothesis HG : filtered_digraph time n z inf.
  Hypothesis HE : forall s t, In (s, t) E -> s < n /\ t < n.
  Variables (phi : cell -> F) (l : list cell).
  Hypothesis HL : cell_listing time n z E phi l.
  Notation lC := (l : list cell_ord).
  Notation phiC := (phi : cell_ord -> F).
  Notation bd := (cell_boundary (K:=K) : cell_ord -> vec K cell_ord).
  Notation g := (fun c : cell_ord => Z.of_nat (cell_dimension c)).
  Notation vecC := (vec K cell_ord).

  Definition ve (e : edge_chain (K:=K)) : vecC := fun c => match c with Edge x y => e x y | _ => f0 end.
  Definition vn (p : node_chain (K:=K)) : vecC := fun c => match c with Node v => p v | _ => f0 end.

  Lemma phi_birth c f : cell_birth time n z E c f -> In c l /\ phi c = f.
  Proof. intros H. destruct HL as (_ & Hin & Hphi & _). split; [apply Hin; eauto|auto]. Qed.
  Lemma in_birth c : In c l -> cell_birth time n z E c (phi c).
  Proof. intros H. destruct HL as (_ & Hin & Hphi & _). apply Hin in H. destruct H as (f & H). now rewrite (Hphi _ _ H). Qed.
  Lemma edge_in t x y : grounded_edge_at time z E t x y <-> In (Edge x y) l /\ ole (phi (Edge x y)) t.
  Proof.
    split.
    - intros [[H Hz]|[H (f & Ef & Hf)]].
      + destruct (@phi_birth (Edge x y) z) as [H1 ->]; [left; auto|]. auto.
      + destruct (@phi_birth (Edge x y) f) as [H1 ->]; [right; auto|]. auto.
    - intros [H Hle]. pose proof (in_birth _ H) as [[H1 H2]|[H1 H2]].
      + left. split; auto. now rewrite <- H2.
      + right. split; auto. exists (phi (Edge x y)). auto.
  Qed.
  Lemma node_in t v : v < n /\ ole z t <-> In (Node v) l /\ ole (phi (Node v)) t.
  Proof.
    split.
    - intros [Hv Hz]. destruct (@phi_birth (Node v) z) as [H1 ->]; [split; auto|]. auto.
    - intros [H Hle]. pose proof (in_birth _ H) as [H1 H2]. rewrite <- H2. auto.
  Qed.
  Lemma edge_ends x y : In (Edge x y) l -> x < n /\ y < n.
  Proof. intros H. apply in_birth in H. destruct H as [[H _]|[_ H]]; [auto|]. destruct HG as [_ H2]. apply H2 in H. tauto. Qed.

  (** *** chains *)
  Lemma edges_chain t e : edges_at time z E t e <-> chain_at phiC g lC 1 t (ve e).
  Proof.
    split.
    - intros H [v|x y|X] Hn; cbn [ve] in Hn; try congruence. apply H in Hn. apply edge_in in Hn. cbn [cell_dimension]. tauto.
    - intros H x y Hn. apply edge_in. destruct (H (Edge x y) Hn) as (H1 & _ & H2). auto.
  Qed.
  Lemma nodes_chain t p : nodes_at n z t p <-> chain_at phiC g lC 0 t (vn p).
  Proof.
    split.
    - intros H [v|x y|X] Hn; cbn [vn] in Hn; try congruence. apply H in Hn. apply node_in in Hn. cbn [cell_dimension]. tauto.
    - intros H v Hn. apply node_in. destruct (H (Node v) Hn) as (H1 & _ & H2). auto.
  Qed.
  Lemma chain_edges t (w : vecC) : chain_at phiC g lC 1 t w -> forall c, w c = ve (fun x y => w (Edge x y)) c.
  Proof.
    intros H c. destruct c as [v|x y|X]; auto; cbn [ve]; destruct (fscalar_dec (w (Node v))) as [|Hn] || destruct (fscalar_dec (w (TwoCell X))) as [|Hn]; auto;
    apply H in Hn; cbn [cell_dimension] in Hn; lia.
  Qed.
  Lemma chain_nodes t (w : vecC) : chain_at phiC g lC 0 t w -> forall c, w c = vn (fun v => w (Node v)) c.
  Proof.
    intros H c. destruct c as [v|x y|X]; auto; cbn [vn]; destruct (fscalar_dec (w (Edge x y))) as [|Hn] || destruct (fscalar_dec (w (TwoCell X))) as [|Hn]; auto;
    apply H in Hn; cbn [cell_dimension] in Hn; lia.
  Qed.

  (** *** the boundary of edges *)
  Lemma vsum_prod {A B} (l1 : list A) (l2 : list B) (f : A -> B -> option K) :
    vsum l1 (fun a => vsum l2 (fun b => f a b)) = vsum (list_prod l1 l2) (fun p => f (fst p) (snd p)).
  Proof.
    induction l1 as [|a l1 IH]; auto. cbn [vsum list_prod]. rewrite vsum_app, <- IH. f_equal. rewrite vsum_map. reflexivity.
  Qed.
  Lemma nodup_prod {A B} (l1 : list A) (l2 : list B) : NoDup l1 -> NoDup l2 -> NoDup (list_prod l1 l2).
  Proof.
    intros H1 H2. induction H1 as [|a l1 Ha H1 IH]; [constructor|]. cbn [list_prod]. apply nodup_app_intro; auto.
    - apply FinFun.Injective_map_NoDup; auto. intros x y [= ->]. reflexivity.
    - intros [x y] Hx Hy. apply in_map_iff in Hx. destruct Hx as (b & [= <- <-] & _). apply in_prod_iff in Hy. tauto.
  Qed.
  Lemma edge_bdry_ok t e : edges_at time z E t e -> forall v, bdry lC bd (ve e) (Node v) = edge_bdry n e v.
  Proof.
    intros He v. unfold bdry, lincomb, edge_bdry. rewrite vsum_prod.
    transitivity (vsum (map (fun p : nat * nat => Edge (fst p) (snd p)) (list_prod (seq 0 n) (seq 0 n))) (fun c => fmul (ve e c) (bd c (Node v)))); [|rewrite vsum_map; reflexivity].
    apply vsum_support.
    - apply HL.
    - apply FinFun.Injective_map_NoDup; [|apply nodup_prod; apply seq_NoDup]. intros [a b] [a' b'] [= -> ->]. reflexivity.
    - intros [w|x y|X] Hn; cbn [ve] in Hn; try (exfalso; apply Hn; destruct (bd _ _); reflexivity).
      assert (Hn' : e x y <> f0) by (intros H0; apply Hn; rewrite H0; destruct (bd _ _); reflexivity).
      apply He, edge_in in Hn'. destruct Hn' as [Hin _]. split; auto. intros _. apply edge_ends in Hin. apply in_map_iff. exists (x, y). split; auto.
      apply in_prod_iff. rewrite !in_seq. lia.
  Qed.
  Lemma bdry_edges_off e c : (forall v, c <> Node v) -> bdry lC bd (ve e) c = f0.
  Proof.
    intros Hc. apply lincomb_0. intros b _. destruct b as [w|x y|X]; auto. right. destruct c as [v|x' y'|X']; auto. now destruct (Hc v).
  Qed.
  Lemma cycle_1_ok t e : cycle_1 time n z E t e <-> cycle_at phiC g lC bd 1 t (ve e).
  Proof.
    unfold cycle_1, cycle_at. rewrite edges_chain. split; intros [H1 H2]; (split; [auto|]).
    - intros [v|x y|X]; [rewrite (@edge_bdry_ok t); auto; now apply edges_chain|apply bdry_edges_off; discriminate|apply bdry_edges_off; discriminate].
    - intros v. rewrite <- (@edge_bdry_ok t); auto. now apply edges_chain.
  Qed.
  Lemma boundary_at_ext d t (u v : vecC) : (forall c, u c = v c) -> boundary_at phiC g (-1) lC bd d t u -> boundary_at phiC g (-1) lC bd d t v.
  Proof. intros H (w & H1 & H2). exists w. split; auto. intros r. now rewrite H2. Qed.
  Lemma boundary_0_ok t p : boundary_0 time n z E t p <-> boundary_at phiC g (-1) lC bd 0 t (vn p).
  Proof.
    split.
    - intros (e & He & Hp). exists (ve e). split; [now apply edges_chain|]. intros [v|x y|X]; cbn [vn].
      + now rewrite (@edge_bdry_ok t).
      + apply bdry_edges_off; discriminate.
      + apply bdry_edges_off; discriminate.
    - intros (w & Hw & Hp). change (0 - -1)%Z with 1%Z in Hw. exists (fun x y => w (Edge x y)).
      assert (He : edges_at time z E t (fun x y => w (Edge x y))).
      { apply edges_chain. intros c Hc. apply Hw. now rewrite (chain_edges Hw). }
      split; auto. intros v. rewrite <- (@edge_bdry_ok t) by auto. etransitivity; [symmetry; apply (Hp (Node v))|].
      apply lincomb_ext; auto. intros c _. apply (chain_edges Hw).
  Qed.

  (** *** the boundary of 2-cells *)
  Definition two_cells (t : F) : list cell2 :=
    flat_map (fun c => match c with TwoCell X => if oleb (phi c) t then [X] else [] | _ => [] end) l.
  Lemma two_cells_in t X : In X (two_cells t) <-> In (TwoCell X) l /\ ole (phi (TwoCell X)) t.
  Proof.
    unfold two_cells. rewrite in_flat_map. split.
    - intros ([v|x y|Y] & Hc & HX); try contradiction. destruct (oleb (phi (TwoCell Y)) t) eqn:El; [|contradiction]. destruct HX as [->|[]]. apply oleb_le in El. auto.
    - intros [H1 H2]. exists (TwoCell X). split; auto. apply oleb_le in H2. rewrite H2. now left.
  Qed.
  Lemma two_cells_nodup t : NoDup (two_cells t).
  Proof.
    unfold two_cells. assert (H : NoDup l) by apply HL. clear - H. induction H as [|c l Hc H IH]; [constructor|]. cbn [flat_map].
    destruct c as [v|x y|X]; auto. destruct (oleb (phi (TwoCell X)) t); auto. constructor; auto. intros Hin. apply Hc. apply in_flat_map in Hin.
    destruct Hin as ([v|x y|Y] & Hy & HX); try contradiction. destruct (oleb _ _); [|contradiction]. destruct HX as [->|[]]. auto.
  Qed.
  Lemma two_cells_gen t X : In X (two_cells t) <-> exists f, generator time X f /\ ole f t.
  Proof.
    rewrite two_cells_in. split.
    - intros [H1 H2]. exists (phi (TwoCell X)). split; auto. exact (in_birth _ H1).
    - intros (f & Hf & Hle). destruct (@phi_birth (TwoCell X) f) as [H1 ->]; auto.
  Qed.
  Lemma two_bdry t (w : vecC) : chain_at phiC g lC 2 t w -> forall c, bdry lC bd w c = vsum (two_cells t) (fun X => fmul (w (TwoCell X)) (bd (TwoCell X) c)).
  Proof.
    intros Hw c. unfold bdry, lincomb. transitivity (vsum (map TwoCell (two_cells t)) (fun b => fmul (w b) (bd b c))); [|apply vsum_map].
    apply vsum_support; [apply HL|apply FinFun.Injective_map_NoDup; [intros x y [= ->]; reflexivity|apply two_cells_nodup]|].
    intros b Hn. assert (Hn' : w b <> f0) by (intros H0; apply Hn; rewrite H0; destruct (bd b c); reflexivity).
    apply Hw in Hn'. destruct Hn' as (Hin & Hd & Hle). split; auto. intros _. destruct b as [v|x y|X]; cbn [cell_dimension] in Hd; try lia.
    apply in_map. now apply two_cells_in.
  Qed.
  Lemma vsum_nz {A} (L : list A) (w f : A -> option K) : vsum L (fun x => fmul (w x) (f x)) <> f0 -> exists x, In x L /\ f x <> f0.
  Proof.
    induction L as [|a L IH]; cbn [vsum]; intros H; [congruence|]. destruct (fscalar_dec (f a)) as [E0|Hn]; [|exists a; split; auto; now left].
    destruct IH as (x & Hx & Hf); [|exists x; split; auto; now right]. intros E1. apply H. rewrite E1, E0. destruct (w a); reflexivity.
  Qed.
  Lemma invariant_comb t (L : list cell2) (w : cell2 -> option K) : (forall X, In X L -> exists f, generator time X f /\ ole f t) ->
    invariant_2_paths time n t (fun a b c => vsum L (fun X => fmul (w X) (path_coef X a b c))).
  Proof.
    intros HX. split.
    - intros a b c Hn. destruct (vsum_nz L w _ Hn) as (X & Hin & Hn').
      destruct (HX X Hin) as (f & Hf & Hle). exact (proj1 (gen_invariant HG Hf Hle) a b c Hn').
    - intros x y Hn. rewrite path_bdry_comb in Hn. destruct (vsum_nz L w _ Hn) as (X & Hin & Hn').
      destruct (HX X Hin) as (f & Hf & Hle). exact (proj2 (gen_invariant HG Hf Hle) x y Hn').
  Qed.
  Lemma boundary_1_ok t e : boundary_1 time n t e <-> boundary_at phiC g (-1) lC bd 1 t (ve e).
  Proof.
    assert (Hoff : forall (w : vecC) c, (forall x y, c <> Edge x y) -> vsum (two_cells t) (fun X => fmul (w (TwoCell X)) (bd (TwoCell X) c)) = f0).
    { intros w c Hc. apply vsum_0. intros X _. replace (bd (TwoCell X) c) with (f0 : option K); [destruct (w _); reflexivity|].
      destruct c as [v|x y|Y]; [|now destruct (Hc x y)|]; destruct X; reflexivity. }
    split.
    - intros (u & Hu & He). set (w := fun c => match c with TwoCell X => if in_dec cell2_eq_dec X (two_cells t) then weight time n u X else f0 | _ => f0 end : option K).
      assert (Hw : chain_at phiC g lC 2 t (w : vecC)).
      { intros [v|x y|X] Hn; cbn in Hn; try congruence. destruct (in_dec cell2_eq_dec X (two_cells t)) as [Hin|]; [|congruence]. apply two_cells_in in Hin. cbn [cell_dimension]. tauto. }
      exists w. split; [exact Hw|]. intros c. rewrite (two_bdry Hw). destruct c as [v|x y|Y]; [apply Hoff; discriminate| |apply Hoff; discriminate].
      cbn [ve]. rewrite He. rewrite (@path_bdry_ext K n u (fun a b c => vsum (two_cells t) (fun X => fmul (weight time n u X) (path_coef X a b c)))).
      + rewrite path_bdry_comb. apply vsum_ext. intros X HX. unfold w. destruct (in_dec cell2_eq_dec X (two_cells t)); [|contradiction].
        apply two_cells_gen in HX. destruct HX as (f & Hf & _). now rewrite (gen_bdry HG _ _ Hf).
      + intros a b c. apply (spans HG (two_cells_nodup t) (two_cells_gen t) Hu).
    - intros (w & Hw & He). change (1 - -1)%Z with 2%Z in Hw.
      exists (fun a b c => vsum (two_cells t) (fun X => fmul (w (TwoCell X)) (path_coef X a b c))). split.
      + apply invariant_comb. intros X. apply two_cells_gen.
      + intros x y. rewrite path_bdry_comb. change (e x y) with (ve e (Edge x y)). rewrite <- He, (two_bdry Hw). apply vsum_ext. intros X HX.
        apply two_cells_gen in HX. destruct HX as (f & Hf & _). now rewrite (gen_bdry HG _ _ Hf).
  Qed.

  (** *** Betti numbers *)
  Lemma ve_comb {I : ordT} (bars : list I) (a : vec K I) (Z : I -> edge_chain (K:=K)) c :
    lincomb bars a (fun b => ve (Z b)) c = ve (fun x y => vsum bars (fun b => fmul (a b) (Z b x y))) c.
  Proof. destruct c; auto; cbn [ve]; apply lincomb_0; auto. Qed.
  Lemma vn_comb {I : ordT} (bars : list I) (a : vec K I) (Z : I -> node_chain (K:=K)) c :
    lincomb bars a (fun b => vn (Z b)) c = vn (fun v => vsum bars (fun b => fmul (a b) (Z b v))) c.
  Proof. destruct c; auto; cbn [vn]; apply lincomb_0; auto. Qed.
  Lemma ve_ext e e' c : (forall x y, e x y = e' x y) -> ve e c = ve e' c.
  Proof. destruct c; cbn [ve]; auto. Qed.
  Lemma vn_ext p p' c : (forall v, p v = p' v) -> vn p c = vn p' c.
  Proof. destruct c; cbn [vn]; auto. Qed.
  Lemma cycle_at_ext d t (u v : vecC) : (forall c, u c = v c) -> cycle_at phiC g lC bd d t u -> cycle_at phiC g lC bd d t v.
  Proof.
    intros H [H1 H2]. split.
    - intros c Hc. apply H1. now rewrite H.
    - intros r. rewrite <- (H2 r). apply lincomb_ext; auto.
  Qed.
  Lemma cycle_0_chain t (u : vecC) : cycle_at phiC g lC bd 0 t u <-> chain_at phiC g lC 0 t u.
  Proof.
    split; [intros [H _]; exact H|]. intros H. split; auto. intros r. apply lincomb_0. intros b _. destruct b as [v|x y|X]; auto; left.
    - destruct (fscalar_dec (u (Edge x y))) as [|Hn]; auto. apply H in Hn. cbn [cell_dimension] in Hn. lia.
    - destruct (fscalar_dec (u (TwoCell X))) as [|Hn]; auto. apply H in Hn. cbn [cell_dimension] in Hn. lia.
  Qed.

  Theorem path_betti_1_ok s t k : path_betti_1 (K:=K) time n z E s t k <-> persistent_betti phiC g (-1) lC bd 1 s t k.
  Proof.
    split; intros (I & bars & Z & H).
    - destruct H as (N & Hk & H1 & H2 & H3). exists I, bars, (fun b => ve (Z b)). split; auto. split; [auto|split; [|split]].
      + intros b Hb. apply cycle_1_ok. auto.
      + intros u Hu. destruct (H2 (fun x y => u (Edge x y))) as (a & Ha).
        { apply cycle_1_ok. eapply cycle_at_ext; [|exact Hu]. apply (chain_edges (proj1 Hu)). }
        exists a. apply boundary_1_ok in Ha. eapply boundary_at_ext; [|exact Ha]. intros c. cbv beta. rewrite (chain_edges (proj1 Hu) c). rewrite ve_comb. destruct c; reflexivity.
      + intros a Ha b Hb. apply (H3 a); auto. apply boundary_1_ok. eapply boundary_at_ext; [|exact Ha]. intros c. apply ve_comb.
    - destruct H as ((N & H1 & H2 & H3) & Hk). exists I, bars, (fun b x y => Z b (Edge x y)). split; auto. split; auto.
      assert (HZ : forall a c, lincomb bars a Z c = ve (fun x y => vsum bars (fun b => fmul (a b) (Z b (Edge x y)))) c).
      { intros a c. rewrite <- ve_comb. apply lincomb_ext; auto. intros b Hb. apply (chain_edges (proj1 (H1 b Hb))). }
      split; [|split].
      + intros b Hb. apply cycle_1_ok. eapply cycle_at_ext; [|exact (H1 b Hb)]. apply (chain_edges (proj1 (H1 b Hb))).
      + intros e He. apply cycle_1_ok in He. destruct (H2 _ He) as (a & Ha). exists a. apply boundary_1_ok. eapply boundary_at_ext; [|exact Ha].
        intros c. cbv beta. rewrite HZ. destruct c; reflexivity.
      + intros a Ha b Hb. apply (H3 a); auto. apply boundary_1_ok in Ha. eapply boundary_at_ext; [|exact Ha]. intros c. symmetry. apply HZ.
  Qed.
  Theorem path_betti_0_ok s t k : path_betti_0 (K:=K) time n z E s t k <-> persistent_betti phiC g (-1) lC bd 0 s t k.
  Proof.
    split; intros (I & bars & Z & H).
    - destruct H as (N & Hk & H1 & H2 & H3). exists I, bars, (fun b => vn (Z b)). split; auto. split; [auto|split; [|split]].
      + intros b Hb. apply cycle_0_chain, nodes_chain. auto.
      + intros u Hu. apply cycle_0_chain in Hu. destruct (H2 (fun v => u (Node v))) as (a & Ha).
        { apply nodes_chain. intros c Hc. apply Hu. now rewrite (chain_nodes Hu). }
        exists a. apply boundary_0_ok in Ha. eapply boundary_at_ext; [|exact Ha]. intros c. cbv beta. rewrite (chain_nodes Hu c). rewrite vn_comb. destruct c; reflexivity.
      + intros a Ha b Hb. apply (H3 a); auto. apply boundary_0_ok. eapply boundary_at_ext; [|exact Ha]. intros c. apply vn_comb.
    - destruct H as ((N & H1 & H2 & H3) & Hk). exists I, bars, (fun b v => Z b (Node v)). split; auto. split; auto.
      assert (HZ : forall a c, lincomb bars a Z c = vn (fun v => vsum bars (fun b => fmul (a b) (Z b (Node v)))) c).
      { intros a c. rewrite <- vn_comb. apply lincomb_ext; auto. intros b Hb. apply (chain_nodes (proj1 (H1 b Hb))). }
      split; [|split].
      + intros b Hb. apply nodes_chain. intros c Hc. apply (proj1 (H1 b Hb)). now rewrite (chain_nodes (proj1 (H1 b Hb))).
      + intros p Hp. apply nodes_chain, cycle_0_chain in Hp. destruct (H2 _ Hp) as (a & Ha). exists a. apply boundary_0_ok. eapply boundary_at_ext; [|exact Ha].
        intros c. cbv beta. rewrite HZ. destruct c; reflexivity.
      + intros a Ha b Hb. apply (H3 a); auto. apply boundary_0_ok in Ha. eapply boundary_at_ext; [|exact Ha]. intros c. symmetry. apply HZ.
  Qed.
End Transport.
