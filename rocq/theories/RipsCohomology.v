(** Lemmas for the end-to-end statements about Rips persistent cohomology. *)
From Verif Require Import Base Fields FieldsFacts Spec LinAlg Columns ColumnsFacts Matrices SpecMat MatricesFacts Reduction LoopProofs StandardProofs ReadOffProofs Graded StandardResults ClearingProofs PropMatrices PropClearing Duality PropDuality Rips SpecRips RipsCode RipsFacts RipsBasis PropRips RipsComplex.
From Coq Require Import Ring Field Ring_theory Sorted Lia.
Set Implicit Arguments.

(** ** Extensionality of the intrinsic notions *)
Section Ext.
  Context {K : coeffT} {F C : ordT} (phi : C -> F) (B : list C) (D D' : C -> vec K C).
  Hypothesis HE : forall b, In b B -> forall r, D b r = D' b r.
  Lemma lincomb_D x r : lincomb B x D r = lincomb B x D' r.
  Proof. apply lincomb_ext; auto. Qed.
  Lemma leading_D x i : leading phi (lincomb B x D) i <-> leading phi (lincomb B x D') i.
  Proof. split; apply leading_ext; intros r; rewrite lincomb_D; auto. Qed.
  Lemma vzero_D x : vzero (lincomb B x D) <-> vzero (lincomb B x D').
  Proof. split; intros H r; [rewrite <- lincomb_D|rewrite lincomb_D]; auto. Qed.
  Lemma is_pair_ext i j : is_pair phi B D i j <-> is_pair phi B D' i j.
  Proof.
    unfold is_pair. split; intros (H1 & (x & Hx & Hl) & H3); (split; [|split]).
    - intros y Hy Hz. apply (H1 y Hy). now apply vzero_D.
    - exists x. split; auto. now apply leading_D.
    - intros y i' Hy Hl'. apply (H3 y i' Hy). now apply leading_D.
    - intros y Hy Hz. apply (H1 y Hy). now apply vzero_D.
    - exists x. split; auto. now apply leading_D.
    - intros y i' Hy Hl'. apply (H3 y i' Hy). now apply leading_D.
  Qed.
  Lemma is_essential_ext c : is_essential phi B D c <-> is_essential phi B D' c.
  Proof.
    unfold is_essential, is_positive. split; intros (H1 & (x & Hx & Hz) & H3); (split; [auto|]); (split; [exists x; split; auto; now apply vzero_D|]);
      intros k Hk Hp; apply (H3 k Hk); now apply is_pair_ext.
  Qed.
End Ext.

(** changing [phi] away from the rows in use changes nothing *)
Section ExtPhi.
  Context {K : coeffT} {F C R : ordT}.
  Lemma leading_phi (phi psi : R -> F) (v : vec K R) i : (forall r, v r <> f0 -> phi r = psi r) -> leading phi v i -> leading psi v i.
  Proof.
    intros H [Hi Hm]. split; auto. intros r Hr. destruct (fscalar_dec (v r)) as [|Hn]; auto. exfalso.
    apply Hn. apply Hm. unfold row_lt in *. rewrite (H i Hi), (H r Hn). exact Hr.
  Qed.
End ExtPhi.

(** a row leading the image of any chain is the birth of a pair *)
Lemma image_leading_paired {K : coeffT} {F C R : ordT} (phi : R -> F) (B : list C) (D : C -> vec K R) (V : C -> vec K C) :
  NoDup B -> triangular B V -> reduced phi B (fun j => lincomb B (V j) D) ->
  (forall x, vzero (lincomb B x D) \/ exists i, leading phi (lincomb B x D) i) ->
  forall y i, leading phi (lincomb B y D) i -> exists j, In j B /\ is_pair phi B D i j.
Proof.
  intros HB HV HR Hfin y i Hl.
  destruct (@triangular_solve K C V [] B y) as (w & Hw & _).
  - now rewrite app_nil_r.
  - intros j Hj. rewrite app_nil_r. auto.
  - assert (E : forall r, lincomb B y D r = lincomb B w (fun j => lincomb B (V j) D) r).
    { intros r. rewrite lincomb_assoc. apply lincomb_ext; auto. intros b Hb. symmetry. auto. }
    assert (Hd : dich phi (fun j => lincomb B (V j) D) B) by (intros j _; apply Hfin).
    destruct (reduced_comb w HB Hd HR) as [[Hz _]|(i' & k & Hk & _ & Hlk & Hlw & _)].
    + exfalso. eapply leading_not_zero; [exact Hl|]. intros r. rewrite E. auto.
    + assert (i = i') by (eapply leading_unique; [exact Hl|]; eapply leading_ext; [|exact Hlw]; auto). subst i'.
      exists k. split; auto. apply (intrinsic_pair HB HV HR Hd); auto.
Qed.

(** ** Sums over facets *)
Section Facets.
  Context {K : coeffT}.
  Add Field KFC : (F_field K).
  Lemma vsum_inc (L : list (list nat)) t (f : list nat -> option K) : NoDup L -> (forall i s, facet t i s -> In s L) ->
    vsum L (fun s => fmul (f s) (inc t s)) = bsum t f.
  Proof.
    intros HL Hin. rewrite bsum_seq.
    transitivity (vsum (seq 0 (length t)) (fun i => vsum L (fun s => fmul (sign K i) (fmul (f s) (if list_eq_dec Nat.eq_dec (rem i t) s then f1 else f0))))).
    - rewrite vsum_swap. apply vsum_ext. intros s _. unfold inc. rewrite bsum_seq. rewrite <- vsum_mul_l. apply vsum_ext. intros i _. ring.
    - apply vsum_ext. intros i Hi. apply in_seq in Hi. rewrite vsum_mul_l. f_equal.
      assert (Hf : facet t i (rem i t)) by (apply facet_rem; split; auto; lia).
      rewrite (@vsum_single K (list nat) L _ (rem i t)); auto.
      + destruct (list_eq_dec Nat.eq_dec (rem i t) (rem i t)); [ring|congruence].
      + eapply Hin; eauto.
      + intros s _ Hne. destruct (list_eq_dec Nat.eq_dec (rem i t) s); [congruence|ring].
  Qed.
  (** the full simplex is acyclic: the cone over vertex 0 *)
  Definition cone (x : list nat -> option K) (s : list nat) : option K :=
    match s with O :: _ => f0 | _ => x (0 :: s) end.
  Lemma bsum_0 t f : (forall i, i < length t -> f (rem i t) = f0) -> bsum t f = (f0 : option K).
  Proof. intros H. rewrite bsum_seq. apply vsum_0. intros i Hi. apply in_seq in Hi. rewrite H by lia. ring. Qed.
  Lemma cone_with_0 (x : list nat -> option K) t : StronglySorted lt (0 :: t) -> bsum (0 :: t) (cone x) = x (0 :: t).
  Proof.
    intros Hs. cbn [bsum]. rewrite (@bsum_0 t).
    - apply StronglySorted_inv in Hs. destruct Hs as [_ Hf]. destruct t as [|[|v] t]; cbn [cone]; [ring| |ring].
      rewrite Forall_forall in Hf. exfalso. specialize (Hf 0 (or_introl eq_refl)). lia.
    - intros i Hi. reflexivity.
  Qed.
  Lemma cone_without_0 (x : list nat -> option K) t : StronglySorted lt t -> ~ In 0 t -> bsum (0 :: t) x = f0 -> bsum t (cone x) = x t.
  Proof.
    intros Hs Hn Hz. cbn [bsum] in Hz.
    assert (E : bsum t (cone x) = bsum t (fun u => x (0 :: u))).
    { apply bsum_ext. intros i Hi. destruct (rem i t) as [|[|v] u] eqn:Er; auto. exfalso. apply Hn.
      assert (Hf : facet t i (rem i t)) by (apply facet_rem; auto). apply (facet_incl Hf). rewrite Er. simpl; auto. }
    rewrite E. set (a := bsum t (fun u => x (0 :: u))) in *.
    assert (Hx : x t = fadd (fsub (x t) a) a) by ring. rewrite Hx, Hz. ring.
  Qed.
End Facets.

Section Coh.
  Context {K : coeffT} {F : ordT} (uw : N) (z : F) (d : list (list F)) (m : nat).
  Notation n := (length d).
  Add Field KFC2 : (F_field K).
  Hypothesis Hd : rips_matrix z d.
  Hypothesis Hm : 1 <= m.
  Hypothesis Hfit : codes_fit uw n (m + 2).
  Variable b : basis rips_index.
  Notation rN := (rev_ord rips_index).
  Notation rF := (rev_ord F).
  Notation RDm := (mden (m_col (RD (K:=K) uw d b))).
  Variable phi : N -> F.
  Hypothesis Hphi : rips_filtration z d phi.
  Notation rp := (rphi (phi : N -> F)).

  (** any listing compatible with the orders *)
  Variable l : list N.
  Hypothesis Hl : rips_order d (phi : N_ord -> F) (m + 1) l.
  Notation lr := (rev_basis l : list rN).

  Lemma l_in s : simplex n s -> (In (code n s) l <-> length s <= m + 1).
  Proof.
    intros Hs. destruct Hl as (_ & H & _). rewrite H. split.
    - intros (t & Ht & Hlt & E). apply code_inj in E; [|apply Hs|apply Ht]. now subst t.
    - intros H'. eauto.
  Qed.
  Lemma lr_in c : In c lr <-> exists s, simplex n s /\ length s <= m + 1 /\ c = Reverse (code n s).
  Proof.
    destruct c as [c]. transitivity (In c l); [exact (rev_basis_in (C:=rips_index) l c)|]. destruct Hl as (_ & H & _). rewrite H.
    split; intros (s & H1 & H2 & E); exists s; (split; [auto|]); (split; [auto|]); [now rewrite E|now injection E].
  Qed.
  Lemma lr_nodup : NoDup lr.
  Proof. apply (rev_basis_nodup (C:=rips_index)). apply Hl. Qed.
  Lemma lr_blocks c : In c lr <-> In c (concat (rblocks z d m)).
  Proof. rewrite lr_in. symmetry. apply rblocks_in; auto. Qed.

  Lemma row_lt_asym {F' R : ordT} (ph : R -> F') x y : row_lt ph x y -> row_lt ph y x -> False.
  Proof.
    intros [H|[E H]] [H'|[E' H']].
    - eapply olt_irrefl. eapply olt_trans; eauto.
    - rewrite E' in H. eapply olt_irrefl; eauto.
    - rewrite E in H'. eapply olt_irrefl; eauto.
    - eapply (@olt_irrefl R x). eapply olt_trans; eauto.
  Qed.
  Lemma lr_before blk x y : In blk (rblocks z d m) -> before blk x y -> before lr x y.
  Proof.
    intros Hb Hxy. apply in_map_iff in Hb. destruct Hb as (k & <- & Hk). apply in_seq in Hk. destruct x as [x], y as [y].
    apply (rev_basis_before (C:=rips_index) (cells z d m k)) in Hxy. apply (rev_basis_before (C:=rips_index) l).
    pose proof (before_in Hxy) as [Hy Hx]. apply cells_in in Hx, Hy; auto; try lia.
    destruct Hx as (s & Hs & Hls & ->). destruct Hy as (t & Ht & Hlt & ->).
    pose proof (@cells_row_lt F z d m Hd Hm phi Hphi k _ _ ltac:(lia) Hxy) as Hrow.
    assert (H1 : In (code n s) l) by (apply l_in; auto; lia). assert (H2 : In (code n t) l) by (apply l_in; auto; lia).
    destruct (@before_total rips_index l (code n t) (code n s) H2 H1) as [E|[H|H]]; auto.
    - exfalso. rewrite E in Hrow. destruct Hrow as [H|[_ H]]; eapply olt_irrefl; eauto.
    - exfalso. destruct Hl as (_ & _ & Ho). apply Ho in H; auto; [|lia]. eapply row_lt_asym; eauto.
  Qed.
  Lemma block_complex_lr : block_complex rp (RD (K:=K) uw d b) (reverse_split (rips_split (rbases z d m))) (seq 0 (m + 1)) (rblocks z d m).
  Proof. apply rips_block_complex; auto. Qed.

  (** grading by the number of vertices *)
  Definition gr (c : rN) : Z := match to_vec n (unrev c) with Ok s => Z.of_nat (length s) | _ => 0%Z end.
  Lemma gr_code s : simplex n s -> gr (Reverse (code n s)) = Z.of_nat (length s).
  Proof. intros Hs. unfold gr. cbn [unrev]. rewrite to_vec_code by apply Hs. reflexivity. Qed.
  Lemma RD_graded : graded gr 1 lr RDm.
  Proof.
    intros c r Hc Hn. apply lr_in in Hc. destruct Hc as (s & Hs & Hls & ->). apply (@RD_den_nz K F uw d m Hm Hfit b) in Hn; auto.
    destruct Hn as (t & i & Ht & Hf & ->). rewrite !gr_code by auto. rewrite (facet_length Hf). lia.
  Qed.
  Lemma RD_fin x : vzero (lincomb lr x RDm) \/ exists i, leading rp (lincomb lr x RDm) i.
  Proof. apply leading_exists with (S := row_set (m_col (RD (K:=K) uw d b)) lr). intros r Hr. eapply lincomb_row_set; eauto. Qed.

  (** the image of a chain, evaluated at a simplex *)
  Definition simps : list (list nat) := map (fun c => match to_vec n c with Ok s => s | _ => [] end) l.
  Lemma simps_code : map (code n) simps = l.
  Proof.
    unfold simps. rewrite map_map. rewrite <- (map_id l) at 2. apply map_ext_in. intros c Hc. destruct Hl as (_ & H & _). apply H in Hc.
    destruct Hc as (s & Hs & _ & ->). rewrite to_vec_code by apply Hs. reflexivity.
  Qed.
  Lemma simps_in s : In s simps <-> simplex n s /\ length s <= m + 1.
  Proof.
    split.
    - intros H. apply in_map_iff in H. destruct H as (c & E & Hc). destruct Hl as (_ & H & _). apply H in Hc. destruct Hc as (t & Ht & Hlt & ->).
      rewrite to_vec_code in E by apply Ht. subst t. auto.
    - intros [Hs Hls]. apply in_map_iff. exists (code n s). split; [now rewrite to_vec_code by apply Hs|]. apply l_in; auto.
  Qed.
  Lemma simps_nodup : NoDup simps.
  Proof. apply (NoDup_map_inv (code n)). rewrite simps_code. apply Hl. Qed.
  Lemma RD_eval (x : vec K rN) t : simplex n t -> 2 <= length t <= m + 2 ->
    lincomb lr x RDm (Reverse (code n t)) = bsum t (fun s => x (Reverse (code n s))).
  Proof.
    intros Ht Hlt. unfold lincomb. rewrite (vsum_rev_basis (K:=K) (C:=rips_index)). rewrite <- simps_code, vsum_map.
    rewrite <- (@vsum_inc K simps t _ simps_nodup).
    - apply vsum_ext. intros s Hs. apply simps_in in Hs. destruct Hs as [Hs Hls]. rewrite (@RD_den K F uw d m Hm Hfit b) by auto. reflexivity.
    - intros i s Hf. apply simps_in. pose proof (facet_length Hf). split; [|lia]. eapply facet_simplex; eauto. intros ->. simpl in *. lia.
  Qed.
  Lemma RD_eval_none (x : vec K rN) r : lincomb lr x RDm r <> f0 -> exists t, simplex n t /\ 2 <= length t <= m + 2 /\ r = Reverse (code n t).
  Proof.
    intros H. apply lincomb_nonzero in H. destruct H as (c & Hc & _ & Hn). apply lr_in in Hc. destruct Hc as (s & Hs & Hls & ->).
    apply (@RD_den_nz K F uw d m Hm Hfit b) in Hn; auto. destruct Hn as (t & i & Ht & Hf & ->). exists t. split; auto. split; auto.
    rewrite (facet_length Hf). assert (length s <> 0) by (destruct s; [destruct Hs; congruence|simpl; lia]). lia.
  Qed.

  (** a decomposition exists: the clearing algorithm computes one *)
  Lemma RD_decomposition : exists V, triangular lr V /\ reduced rp lr (fun j => lincomb lr (V j) RDm).
  Proof.
    destruct (@C31_clearing_decomposition list_heaps K rN rF rp (RD (K:=K) uw d b) _ _ _ block_complex_lr
       (S (length (row_set (m_col (RD (K:=K) uw d b)) (concat (rblocks z d m)))))) as (rc & dg & _ & H & _); [lia|].
    cbv zeta in H. destruct (H lr lr_nodup lr_blocks lr_before) as (H1 & H2 & H3).
    eexists. split; [exact H1|]. intros j k i Hj Hk L1 L2. apply (H2 j k i Hj Hk).
    - eapply leading_ext; [|exact L1]. intros r. symmetry. apply H3. auto.
    - eapply leading_ext; [|exact L2]. intros r. symmetry. apply H3. auto.
  Qed.

  (** a cocycle may be restricted to the simplices of one dimension *)
  Lemma restrict_cocycle x s : simplex n s -> ends_at lr x (Reverse (code n s)) -> vzero (lincomb lr x RDm) ->
    let y := restrict gr (Z.of_nat (length s)) x in
    y (Reverse (code n s)) <> f0 /\ vzero (lincomb lr y RDm) /\ 
    (forall t, simplex n t -> y (Reverse (code n t)) <> f0 -> length t = length s) /\
    (forall t, simplex n t -> length t <= m + 1 -> y (Reverse (code n t)) <> f0 -> row_le rp (Reverse (code n t)) (Reverse (code n s))).
  Proof.
    intros Hs He Hz y.
    assert (Hys : y (Reverse (code n s)) = x (Reverse (code n s))).
    { unfold y, restrict. rewrite gr_code by auto. now rewrite Z.eqb_refl. }
    assert (Hyl : forall t, simplex n t -> y (Reverse (code n t)) <> f0 -> length t = length s).
    { intros t Ht Hn. unfold y, restrict in Hn. rewrite gr_code in Hn by auto. destruct (Z.eqb_spec (Z.of_nat (length t)) (Z.of_nat (length s))); [lia|congruence]. }
    split; [|split; [|split]].
    - rewrite Hys. destruct He as (B1 & B2 & _ & H & _). auto.
    - intros r. unfold y. rewrite (@lincomb_restrict K rN lr RDm gr 1 RD_graded). destruct (gr r =? _)%Z; auto.
    - exact Hyl.
    - intros t Ht Hlt Hn. pose proof (Hyl t Ht Hn) as El.
      assert (Hx : x (Reverse (code n t)) <> f0).
      { unfold y, restrict in Hn. destruct (gr _ =? _)%Z; auto. }
      destruct He as (B1 & B2 & E & _ & H0). assert (Hin : In (Reverse (code n t) : rN) lr) by (apply lr_in; eauto).
      rewrite E in Hin. apply in_app_iff in Hin. destruct Hin as [Hin|[Hin|Hin]].
      + left. assert (Hb : before lr (Reverse (code n t) : rN) (Reverse (code n s))).
        { apply in_split in Hin. destruct Hin as (C1 & C2 & ->). exists C1, C2, B2. rewrite E, <- app_assoc. reflexivity. }
        apply (rev_basis_before (C:=rips_index) l) in Hb. destruct Hl as (_ & _ & Ho). apply Ho in Hb; auto.
        unfold row_lt, rphi in *. cbn [unrev]. destruct Hb as [H|[H1 H2]]; [left; exact H|right; split; [f_equal; symmetry; exact H1|exact H2]].
      + right. auto.
      + exfalso. apply Hx. auto.
  Qed.

  (** a positive simplex of dimension at least 1 is the birth of a pair *)
  Lemma positive_paired s : simplex n s -> 2 <= length s <= m + 1 -> is_positive lr RDm (Reverse (code n s)) ->
    exists j, In j lr /\ is_pair rp lr RDm (Reverse (code n s)) j.
  Proof.
    intros Hs Hls (x & He & Hz). destruct (restrict_cocycle Hs He Hz) as (Hys & Hyz & Hyl & Hyo).
    set (y := restrict gr (Z.of_nat (length s)) x) in *.
    set (X := fun u => y (Reverse (code n u)) : option K).
    destruct RD_decomposition as (V & HV & HR).
    pose (w := fun c : rN => match to_vec n (unrev c) with Ok u => cone X u | _ => f0 end).
    assert (Hw : forall t, simplex n t -> 2 <= length t <= m + 1 -> lincomb lr w RDm (Reverse (code n t)) = y (Reverse (code n t))).
    { intros t Ht Hlt. rewrite RD_eval by (auto; lia).
      rewrite (@bsum_ext K t _ (cone X)).
      2:{ intros i Hi. unfold w. cbn [unrev]. rewrite to_vec_code; auto.
          assert (Hf : facet t i (rem i t)) by (apply facet_rem; auto). pose proof (facet_length Hf). eapply facet_simplex; eauto. intros E. rewrite E in *. simpl in *. lia. }
      destruct t as [|[|v] t']; [simpl in Hlt; lia| |].
      - apply (@cone_with_0 K X). apply Ht.
      - assert (Hn0 : ~ In 0 (S v :: t')).
        { destruct Ht as (_ & Hst & _). apply StronglySorted_inv in Hst. destruct Hst as [_ Hf]. rewrite Forall_forall in Hf. intros [E|Hin]; [lia|]. apply Hf in Hin. lia. }
        change (y (Reverse (code n (S v :: t')))) with (X (S v :: t')). apply cone_without_0; auto; [apply Ht|].
        assert (H0t : simplex n (0 :: S v :: t')).
        { destruct Ht as (_ & Hst & Hb). split; [discriminate|]. split.
          - constructor; auto. apply Forall_forall. intros a Ha. destruct a; [contradiction|lia].
          - constructor; auto. inversion Hb; subst. lia. }
        pose proof (Hyz (Reverse (code n (0 :: S v :: t')))) as E0. rewrite RD_eval in E0; [exact E0|exact H0t|simpl in *; lia]. }
    assert (Hlead : leading rp (lincomb lr w RDm) (Reverse (code n s))).
    { split; [rewrite Hw by auto; auto|]. intros r Hr. destruct (fscalar_dec (lincomb lr w RDm r)) as [|Hn]; auto. exfalso.
      assert (Hr' : exists t, simplex n t /\ length t = length s /\ r = Reverse (code n t)).
      { pose proof Hn as Hn'. apply RD_eval_none in Hn'. destruct Hn' as (t & Ht & Hlt & ->). exists t. split; auto. split; auto.
        rewrite RD_eval in Hn by auto. 
        destruct (Nat.eq_dec (length t) (length s)) as [|Hne]; auto. exfalso. apply Hn.
        apply bsum_0. intros i Hi. unfold w. cbn [unrev].
        assert (Hf : facet t i (rem i t)) by (apply facet_rem; auto). pose proof (facet_length Hf) as Hfl.
        assert (Hsf : simplex n (rem i t)) by (eapply facet_simplex; eauto; intros E; rewrite E in *; simpl in *; lia).
        rewrite to_vec_code by apply Hsf.
        assert (HX0 : X (0 :: rem i t) = f0).
        { destruct (fscalar_dec (X (0 :: rem i t))) as [|Hx]; auto. exfalso.
          unfold X, y, restrict, gr in Hx. cbn [unrev] in Hx.
          rewrite to_vec_code in Hx by (constructor; [destruct Hsf as (Hne' & _ & Hb'); destruct (rem i t); [congruence|inversion Hb'; lia]|apply Hsf]).
          destruct (Z.eqb_spec (Z.of_nat (length (0 :: rem i t))) (Z.of_nat (length s))) as [E|]; [|congruence]. simpl in E. lia. }
        unfold cone. destruct (rem i t) as [|[|]]; auto. }
      destruct Hr' as (t & Ht & Hlt & ->). apply Hn. rewrite Hw by (auto; lia).
      destruct (fscalar_dec (y (Reverse (code n t)))) as [|Hyn]; auto. exfalso. destruct (Hyo t Ht ltac:(lia) Hyn) as [Hlt'|E].
      - eapply row_lt_asym; [exact Hr|exact Hlt'].
      - rewrite E in Hr. eapply row_lt_asym; eauto. }
    eapply image_leading_paired; [apply lr_nodup|exact HV|exact HR|apply RD_fin|exact Hlead].
  Qed.

  Lemma phi_vertex v : v < n -> phi (code n [v]) = z.
  Proof.
    intros Hv. assert (Hs : simplex n [v]) by (split; [discriminate|split; repeat constructor; auto]).
    destruct (Hphi Hs) as ((i & j & Hi & Hj & <-) & _). simpl in Hi, Hj. destruct Hi as [<-|[]]. destruct Hj as [<-|[]].
    destruct Hd as (_ & Hdi & _). auto.
  Qed.
  Lemma length1 s : simplex n s -> length s <= 1 -> exists v, s = [v] /\ v < n.
  Proof.
    intros (Hne & _ & Hb) H. destruct s as [|v [|w s]]; [congruence| |simpl in H; lia]. exists v. split; auto. inversion Hb; auto.
  Qed.

  Lemma vertex_lt v w : @olt rips_index (code n [v]) (code n [w]) -> v < w.
  Proof. unfold olt. cbn [rips_index N_ord cmp code]. rewrite N.compare_lt_iff. lia. Qed.

  (** the essential classes *)
  Theorem essential_exact c : is_essential rp lr RDm c <-> 0 < n /\ c = Reverse (code n [0]).
  Proof.
    split.
    - intros (Hc & Hpos & Hnp). apply lr_in in Hc. destruct Hc as (s & Hs & Hls & ->).
      destruct (Nat.le_gt_cases 2 (length s)) as [H2|H2].
      { destruct (@positive_paired s Hs ltac:(lia) Hpos) as (j & Hj & Hp). exfalso. eapply Hnp; eauto. }
      destruct (length1 Hs) as (v & -> & Hv); [lia|]. split; [lia|]. f_equal.
      destruct (Nat.eq_dec v 0) as [->|Hv0]; auto. exfalso.
      destruct Hpos as (x & He & Hz). destruct (restrict_cocycle Hs He Hz) as (Hys & Hyz & Hyl & Hyo).
      set (y := restrict gr (Z.of_nat (length [v])) x) in *.
      assert (H0v : simplex n [0; v]).
      { split; [discriminate|]. split; [repeat constructor; lia|]. repeat constructor; lia. }
      assert (Hs0 : simplex n [0]) by (split; [discriminate|split; repeat constructor; lia]).
      pose proof (Hyz (Reverse (code n [0; v]))) as E. rewrite RD_eval in E by (auto; simpl; lia). cbn [bsum] in E.
      assert (E' : y (Reverse (code n [v])) = y (Reverse (code n [0]))).
      { set (p := y (Reverse (code n [v]))) in *. set (q := y (Reverse (code n [0]))) in *.
        assert (p = fadd (fsub p (fsub q f0)) q) as -> by ring. rewrite E. ring. }
      rewrite E' in Hys. destruct (Hyo [0] Hs0 ltac:(simpl; lia) Hys) as [H|H].
      + unfold row_lt, rphi in H. cbn [unrev] in H. rewrite !phi_vertex in H by lia. destruct H as [H|[_ H]]; [eapply olt_irrefl; eauto|].
        apply vertex_lt in H. lia.
      + apply (f_equal unrev) in H. cbn [unrev] in H. apply code_inj in H; [congruence|apply Hs0|apply Hs].
    - intros [Hn ->]. assert (Hs0 : simplex n [0]) by (split; [discriminate|split; repeat constructor; lia]).
      assert (Hin : In (Reverse (code n [0]) : rN) lr) by (apply lr_in; exists [0]; split; auto; split; auto; simpl; lia).
      split; auto. split.
      + pose (x := fun c : rN => match to_vec n (unrev c) with Ok [v] => f1 | _ => f0 end : option K).
        assert (Hx : forall s, simplex n s -> x (Reverse (code n s)) = if length s =? 1 then f1 else f0).
        { intros s Hs. unfold x. cbn [unrev]. rewrite to_vec_code by apply Hs. destruct s as [|v [|w s]]; auto. }
        exists x. split.
        * apply in_split in Hin. destruct Hin as (B1 & B2 & E). exists B1, B2. split; auto. split; [rewrite Hx by auto; apply f1_neq0|].
          intros c Hc. assert (Hcl : In c lr) by (rewrite E; apply in_app_iff; simpl; auto). apply lr_in in Hcl. destruct Hcl as (s & Hs & Hls & ->).
          rewrite Hx by auto. destruct (Nat.eqb_spec (length s) 1) as [E1|]; auto. exfalso. destruct (length1 Hs) as (v & -> & Hv); [lia|].
          assert (Hb : before lr (Reverse (code n [0]) : rN) (Reverse (code n [v]))).
          { apply before_split. eauto. }
          pose proof (before_neq lr_nodup Hb) as Hne. apply (rev_basis_before (C:=rips_index) l) in Hb. destruct Hl as (_ & _ & Ho). apply Ho in Hb; auto.
          unfold row_lt in Hb. rewrite !phi_vertex in Hb by auto. destruct Hb as [H|[_ H]]; [eapply olt_irrefl; eauto|]. apply vertex_lt in H. lia.
        * intros r. destruct (fscalar_dec (lincomb lr x RDm r)) as [|Hnz]; auto. exfalso. pose proof Hnz as Hnz'. apply RD_eval_none in Hnz'.
          destruct Hnz' as (t & Ht & Hlt & ->). apply Hnz. rewrite RD_eval by auto.
          assert (Hf : forall i, i < length t -> simplex n (rem i t) /\ length (rem i t) = length t - 1).
          { intros i Hi. assert (Hf : facet t i (rem i t)) by (apply facet_rem; auto). pose proof (facet_length Hf). split; [|lia]. eapply facet_simplex; eauto. intros E. rewrite E in *. simpl in *. lia. }
          destruct (Nat.eq_dec (length t) 2) as [E2|Hne].
          -- destruct t as [|a [|c [|]]]; try discriminate. cbn [bsum]. pose proof (Hf 0 ltac:(simpl; lia)) as [F0 _]. pose proof (Hf 1 ltac:(simpl; lia)) as [F1 _]. cbn [rem] in F0, F1.
             rewrite !Hx by auto. simpl. ring.
          -- apply bsum_0. intros i Hi. destruct (Hf i Hi) as [H1 H2]. rewrite Hx by auto. destruct (Nat.eqb_spec (length (rem i t)) 1); auto. lia.
      + intros k Hk (_ & (x & _ & [Hnz _]) & _). apply RD_eval_none in Hnz. destruct Hnz as (t & Ht & Hlt & E). apply (f_equal unrev) in E. cbn [unrev] in E.
        apply code_inj in E; [|apply Hs0|apply Ht]. subst t. simpl in Hlt. lia.
  Qed.
End Coh.
