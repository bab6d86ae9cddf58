(** Property theorems C106, C107: which Rips bars depend on the field. *)
From Verif Require Import Base Fields FieldsFacts Spec LinAlg Columns ColumnsFacts Matrices SpecMat MatricesFacts Reduction ReadOffProofs StandardProofs StandardResults PropStandard PropClearing Duality PropDuality Examples Rips SpecRips SpecPath RipsCode RipsFacts RipsBasis RipsComplex PropRips RipsCohomology PropRipsCohomology SpecPH Persistence RipsPersistence PropRipsPersistence SpanTree PropSpanTree PropGrpphExamples PropRipsCli PropMaxDim.
From Coq Require Import Ring Field Permutation Lia Arith.
Set Implicit Arguments.

(** ** C106: in dimension 0 the bars are the same over every field *)
Theorem C106_dimension_0_any_field :
  forall (HI HI' : heaps) (K K' : coeffT) (F : ordT) (uw uw' : N) (z : F) (d : list (list F)) (m m' : nat),
  1 <= length d -> distance_matrix z d -> 1 <= m -> 1 <= m' -> codes_fit uw (length d) (m + 2) -> codes_fit uw' (length d) (m' + 2) ->
  forall (L L' : list N) (fuel fuel' : nat), covers_simplices (length d) (m + 2) L -> covers_simplices (length d) (m' + 2) L' -> length L < fuel -> length L' < fuel' ->
  exists rc dg rc' dg',
    rips_cohomology HI (K:=K) fuel uw z d m = Ok (rc, dg) /\ rips_cohomology HI' (K:=K') fuel' uw' z d m' = Ok (rc', dg') /\
    essential dg = essential dg' /\
    forall (phi : N_ord -> F) (dim : N_ord -> Z), rips_filtration z d phi -> simplex_dim (length d) dim ->
      Permutation (map (fun p => (phi (unrev (snd p)), phi (unrev (fst p)))) (filter (fun p : rN * rN => (dim (unrev (snd p)) =? 0)%Z) (pairings dg)))
                  (map (fun p => (phi (unrev (snd p)), phi (unrev (fst p)))) (filter (fun p : rN * rN => (dim (unrev (snd p)) =? 0)%Z) (pairings dg'))).
Proof.
  intros HI HI' K K' F uw uw' z d m m' Hn Hd Hm Hm' Hfit Hfit' L L' fuel fuel' HL HL' Hf Hf'. pose proof (distance_rips Hd) as Hrd.
  destruct (@C101_minimum_spanning_tree HI K F uw z d m Hn Hd Hm Hfit L fuel HL Hf) as (rc & dg & E1 & (T & HT) & H1).
  destruct (@C101_minimum_spanning_tree HI' K' F uw' z d m' Hn Hd Hm' Hfit' L' fuel' HL' Hf') as (rc' & dg' & E2 & _ & H2).
  destruct (@C44_diagram_shape HI K F uw z d m Hrd Hm Hfit L fuel HL Hf) as (rc0 & dg0 & E0 & _ & _ & _ & S1). rewrite E1 in E0. injection E0 as <- <-.
  destruct (@C44_diagram_shape HI' K' F uw' z d m' Hrd Hm' Hfit' L' fuel' HL' Hf') as (rc0 & dg0 & E0 & _ & _ & _ & S2). rewrite E2 in E0. injection E0 as <- <-.
  exists rc, dg, rc', dg'. split; auto. split; auto. split; [congruence|]. intros phi dim Hphi Hdim. rewrite (H1 phi dim T Hphi Hdim HT), (H2 phi dim T Hphi Hdim HT). reflexivity.
Qed.
Print Assumptions C106_dimension_0_any_field.

(** ** C106: in dimension 1 they are not.  Eleven points; the pairs at distance 3 are the edges of a triangulation of the projective plane in
    which every three mutually joined vertices bound a triangle; all others are at distance 5. *)
Definition rp2_edges : list (nat * nat) :=
  [(0, 1); (0, 2); (0, 3); (0, 4); (0, 6); (0, 8); (1, 2); (1, 7); (1, 8); (1, 10); (2, 3); (2, 5); (2, 7); (3, 4); (3, 5); (3, 9); (3, 10); (4, 6); (4, 7); (4, 10);
   (5, 6); (5, 7); (5, 8); (5, 9); (6, 7); (6, 8); (7, 10); (8, 9); (8, 10); (9, 10)].
Definition rp2 : list (list nat_ord) :=
  map (fun i => map (fun j => if i =? j then 0 else if existsb (fun e => (fst e =? i) && (snd e =? j) || (fst e =? j) && (snd e =? i)) rp2_edges then 3 else 5) (seq 0 11)) (seq 0 11).
(** birth and death of the pairs of dimension 1 that have positive length *)
Definition loops_of (d : list (list nat_ord)) (dg : diagram (rev_ord rips_index)) : list (res nat_ord * res nat_ord) :=
  filter (fun p => match p with (Ok b, Ok e) => negb (b =? e) | _ => true end)
    (map (fun p => (rips_filtration_value d (unrev (snd p)), rips_filtration_value d (unrev (fst p))))
      (filter (fun p => match rips_dimension (length d) (unrev (snd p)) with Ok 1 => true | _ => false end) (pairings dg))).
Theorem C106_field_matters :
  distance_matrix (0 : nat_ord) rp2 /\ codes_fit (2 ^ 64) (length rp2) 3 /\
  (exists rc dg, rips_cohomology list_heaps (K:=Z2_coeff) 3000 (2 ^ 64) (0 : nat_ord) rp2 1 = Ok (rc, dg) /\ loops_of rp2 dg = [(Ok 3, Ok 5)]) /\
  (exists rc dg, rips_cohomology list_heaps (K:=Z3_coeff) 3000 (2 ^ 64) (0 : nat_ord) rp2 1 = Ok (rc, dg) /\ loops_of rp2 dg = []).
Proof.
  split; [|split; [|split]].
  - split; [intros row Hr; repeat (destruct Hr as [<-|Hr]; [reflexivity|]); destruct Hr|].
    assert (B : forall P : nat -> Prop, P 0 -> P 1 -> P 2 -> P 3 -> P 4 -> P 5 -> P 6 -> P 7 -> P 8 -> P 9 -> P 10 -> forall i, i < length rp2 -> P i).
    { intros P H0 H1 H2 H3 H4 H5 H6 H7 H8 H9 H10 i Hi. change (length rp2) with 11 in Hi. do 11 (destruct i as [|i]; [assumption|]). lia. }
    split; [|split].
    + intros i j Hi Hj. revert i Hi j Hj. refine (B _ _ _ _ _ _ _ _ _ _ _ _); refine (B _ _ _ _ _ _ _ _ _ _ _ _); reflexivity.
    + refine (B _ _ _ _ _ _ _ _ _ _ _ _); reflexivity.
    + intros i j Hi Hj. apply ole_nat. apply Nat.le_0_l.
  - intros s (Hne & Hs & Hb) Hl. pose proof (code_bound Hb) as H. change (length rp2) with 11 in *.
    assert ((N.of_nat 11 + 1) ^ N.of_nat (length s) <= (N.of_nat 11 + 1) ^ 3)%N by (apply N.pow_le_mono_r; [discriminate|lia]).
    assert ((N.of_nat 11 + 1) ^ 3 < 2 ^ 64)%N by reflexivity. lia.
  - assert (E : match rips_cohomology list_heaps (K:=Z2_coeff) 3000 (2 ^ 64) (0 : nat_ord) rp2 1 with Ok (_, dg) => loops_of rp2 dg = [(Ok 3, Ok 5)] | _ => False end) by (vm_compute; reflexivity).
    destruct (rips_cohomology list_heaps 3000 (2 ^ 64) (0 : nat_ord) rp2 1) as [[rc dg]| |]; [eauto|contradiction..].
  - assert (E : match rips_cohomology list_heaps (K:=Z3_coeff) 3000 (2 ^ 64) (0 : nat_ord) rp2 1 with Ok (_, dg) => loops_of rp2 dg = [] | _ => False end) by (vm_compute; reflexivity).
    destruct (rips_cohomology list_heaps 3000 (2 ^ 64) (0 : nat_ord) rp2 1) as [[rc dg]| |]; [eauto|contradiction..].
Qed.
Print Assumptions C106_field_matters.

(** in dimension 0 both fields give ten bars (0, 3) *)
Definition vertex_bars_of (d : list (list nat_ord)) (dg : diagram (rev_ord rips_index)) : list (res nat_ord * res nat_ord) :=
  map (fun p => (rips_filtration_value d (unrev (snd p)), rips_filtration_value d (unrev (fst p))))
    (filter (fun p => match rips_dimension (length d) (unrev (snd p)) with Ok 0 => true | _ => false end) (pairings dg)).
Example C106_ex :
  match rips_cohomology list_heaps (K:=Z2_coeff) 3000 (2 ^ 64) (0 : nat_ord) rp2 1, rips_cohomology list_heaps (K:=Z3_coeff) 3000 (2 ^ 64) (0 : nat_ord) rp2 1 with
  | Ok (_, dg), Ok (_, dg') => vertex_bars_of rp2 dg = repeat (Ok 0, Ok 3) 10 /\ vertex_bars_of rp2 dg' = repeat (Ok 0, Ok 3) 10
  | _, _ => False end.
Proof. vm_compute. split; reflexivity. Qed.

(** ** Extensions of fields *)
(** [h] embeds the field [K] (with its zero) into [K'] *)
Definition field_embedding (K K' : coeffT) (h : option K -> option K') : Prop :=
  h f0 = f0 /\ h f1 = f1 /\ (forall x y, h (fadd x y) = fadd (h x) (h y)) /\ (forall x y, h (fmul x y) = fmul (h x) (h y)).

Section Embedding.
  Context {K K' : coeffT} (h : option K -> option K').
  Hypothesis Hh : field_embedding K K' h.
  Add Field KFe : (F_field K).
  Add Field KFe' : (F_field K').
  Lemma embed_0 x : h x = f0 <-> x = f0.
  Proof.
    destruct Hh as (H0 & H1 & Ha & Hm). split; [|now intros ->]. intros Hx. destruct (fscalar_dec x) as [|Hn]; auto. exfalso.
    assert (E : fmul x (finv x) = f1) by (field; auto). apply (f_equal h) in E. rewrite Hm, Hx, H1 in E.
    apply (@f1_neq0 K'). rewrite <- E. ring.
  Qed.
  Lemma embed_opp x : h (fopp x) = fopp (h x).
  Proof.
    destruct Hh as (H0 & H1 & Ha & Hm). assert (E : fadd x (fopp x) = f0) by ring. apply (f_equal h) in E. rewrite Ha, H0 in E.
    transitivity (fadd (fadd (h x) (h (fopp x))) (fopp (h x))); [ring|]. rewrite E. ring.
  Qed.
  Lemma embed_sum {A} (l : list A) f : h (vsum l f) = vsum l (fun a => h (f a)).
  Proof. destruct Hh as (H0 & H1 & Ha & Hm). induction l as [|a l IH]; [exact H0|]. cbn [vsum]. now rewrite Ha, IH. Qed.
  Lemma embed_lincomb {C R : Type} (B : list C) (x : vec K C) (D : C -> vec K R) r : lincomb B (fun c => h (x c)) (fun c r => h (D c r)) r = h (lincomb B x D r).
  Proof. destruct Hh as (H0 & H1 & Ha & Hm). unfold lincomb. rewrite embed_sum. apply vsum_ext. intros c _. now rewrite Hm. Qed.
  Context {F C : ordT} (phi : C -> F) (B : list C) (D : C -> vec K C) (S : list C).
  Hypothesis Hnd : NoDup B.
  Hypothesis HS : forall c r, In c B -> D c r <> f0 -> In r S.
  Lemma embed_leading (v : vec K C) (w : vec K' C) i : (forall r, w r = h (v r)) -> (leading phi v i <-> leading phi w i).
  Proof. intros E. unfold leading. rewrite E. split; intros [H1 H2]; split; try (intros H; apply H1; now apply embed_0 in H); try (rewrite embed_0 in H1; exact H1); intros r Hr; [rewrite E; now apply embed_0, H2|apply embed_0; rewrite <- E; auto]. Qed.
  Lemma decomposition_rows : exists V, triangular B V /\ reduced phi B (fun j => lincomb B (V j) D).
  Proof.
    set (B' := filter (fun r => if in_dec ord_eq_dec r B then false else true) (nodup ord_eq_dec S)).
    assert (Hnd' : NoDup (B ++ B')).
    { apply nodup_app_intro; auto; [apply NoDup_filter, NoDup_nodup|]. intros x Hx Hx'. apply filter_In in Hx'. destruct Hx' as [_ Hx']. destruct (in_dec ord_eq_dec x B); [discriminate|contradiction]. }
    destruct (@decomposition_exists K C F phi (B ++ B') (fun c r => if in_dec ord_eq_dec c B then D c r else f0)) as (V & HV & HR); auto.
    - intros c r _ Hr. destruct (in_dec ord_eq_dec c B) as [Hc|]; [|congruence]. apply in_app_iff. destruct (in_dec ord_eq_dec r B) as [|Hn]; auto. right. apply filter_In. split; [apply nodup_In; eauto|]. destruct (in_dec ord_eq_dec r B); auto.
    - assert (E : forall j, In j B -> ends_at B (V j) j /\ forall r, lincomb (B ++ B') (V j) (fun c r => if in_dec ord_eq_dec c B then D c r else f0) r = lincomb B (V j) D r).
      { intros j Hj. assert (Hj' : In j (B ++ B')) by (apply in_app_iff; auto). apply HV in Hj'. destruct (ends_prefix B B' Hnd' Hj Hj') as [H1 H2]. split; auto. intros r. rewrite (lincomb_prefix B B' _ _ H2). unfold lincomb. apply vsum_ext. intros c Hc. destruct (in_dec ord_eq_dec c B); [auto|contradiction]. }
      exists V. split; [intros j Hj; now apply E|]. intros j k i Hj Hk H1 H2. apply (HR j k i); [apply in_app_iff; auto|apply in_app_iff; auto| |].
      + eapply leading_ext; [|exact H1]. intros r. symmetry. now apply E.
      + eapply leading_ext; [|exact H2]. intros r. symmetry. now apply E.
  Qed.
  Variable D' : C -> vec K' C.
  Hypothesis HD : forall c r, In c B -> D' c r = h (D c r).
  Lemma embed_intrinsic i j : In j B -> (is_pair phi B D i j <-> is_pair phi B D' i j) /\ (is_positive B D j <-> is_positive B D' j).
  Proof.
    intros Hj. destruct decomposition_rows as (V & HV & HR).
    assert (E : forall k r, lincomb B (fun c => h (V k c)) D' r = h (lincomb B (V k) D r)).
    { intros k r. rewrite <- embed_lincomb. unfold lincomb. apply vsum_ext. intros c Hc. now rewrite HD. }
    assert (Hdi : forall k, In k B -> vzero (lincomb B (V k) D) \/ exists i, leading phi (lincomb B (V k) D) i).
    { intros k _. apply (leading_exists phi S). intros r Hr. unfold lincomb in Hr. destruct (in_dec ord_eq_dec r S) as [|Hn]; auto. exfalso. apply Hr, vsum_0. intros c Hc. destruct (fscalar_dec (D c r)) as [->|Hne]; [ring|]. exfalso. eauto. }
    destruct (@C25_any_decomposition K F C C phi B D V Hnd HV HR Hdi i j Hj) as [P1 P2].
    destruct (@C25_any_decomposition K' F C C phi B D' (fun k c => h (V k c)) Hnd) with (i := i) (j := j) as [Q1 Q2]; auto.
    - intros k Hk. destruct (HV k Hk) as (B1 & B2 & EB & Hn & Hz). exists B1, B2. split; auto. split; [rewrite embed_0; auto|]. intros b Hb. now apply embed_0, Hz.
    - intros k k' i' Hk Hk' L1 L2. apply (HR k k' i' Hk Hk'); [exact (proj2 (@embed_leading _ _ i' (E k)) L1)|exact (proj2 (@embed_leading _ _ i' (E k')) L2)].
    - intros k Hk. destruct (Hdi k Hk) as [Hz|(i' & Hl)]; [left; intros r; rewrite E; now apply embed_0|right; exists i'; exact (proj1 (@embed_leading _ _ i' (E k)) Hl)].
    - rewrite <- P1, <- Q1, <- P2, <- Q2. split; [exact (@embed_leading _ _ i (E j))|]. split; intros Hz r; [rewrite E; now apply embed_0|apply embed_0; rewrite <- E; apply Hz].
  Qed.
  Lemma embed_essential j : is_essential phi B D j <-> is_essential phi B D' j.
  Proof.
    unfold is_essential. split; intros (H1 & H2 & H3); (split; [auto|]); (split; [now apply (@embed_intrinsic j j H1)|]); intros k Hk Hp; apply (H3 k Hk); now apply (@embed_intrinsic j k Hk).
  Qed.
End Embedding.

(** ** C107: an extension of the field changes no diagram *)
Theorem C107_standard :
  forall (HI HI' : heaps) (K K' : coeffT) (h : option K -> option K') (C F : ordT) (phi : C -> F) (D : fmatrix K C C F) (D' : fmatrix K' C C F) (b b' : basis C) (l : list C),
  field_embedding K K' h -> square_matrix phi D b l -> square_matrix phi D' b' l ->
  (forall c r, In c l -> mden (m_col D') c r = h (mden (m_col D) c r)) ->
  forall fuel fuel', length (row_set (m_col D) l) < fuel -> length (row_set (m_col D') l) < fuel' ->
  (forall reverse_order reverse_order', exists v dg v' dg',
    standard_algo_with_diagram HI fuel D b reverse_order = Ok (v, dg) /\ standard_algo_with_diagram HI' fuel' D' b' reverse_order' = Ok (v', dg') /\
    Permutation (pairings dg) (pairings dg')) /\
  ((forall c r, In c l -> mden (m_col D) c r <> f0 -> before l r c) ->
   exists v dg v' dg',
    standard_algo_with_diagram HI fuel D b false = Ok (v, dg) /\ standard_algo_with_diagram HI' fuel' D' b' false = Ok (v', dg') /\
    Permutation (pairings dg) (pairings dg') /\ Permutation (essential dg) (essential dg')).
Proof.
  intros HI HI' K K' h C F phi D D' b b' l Hh Hsq Hsq' HD fuel fuel' Hf Hf'. pose proof (proj1 Hsq) as Hnd.
  assert (HS : forall c r, In c l -> mden (m_col D) c r <> f0 -> In r (row_set (m_col D) l)).
  { intros c r Hc Hr. apply lincomb_row_set with (x := fun c' => if oeqb c c' then f1 else f0). now rewrite lincomb_unit. }
  assert (HP : forall reverse_order reverse_order', exists v dg v' dg',
    standard_algo_with_diagram HI fuel D b reverse_order = Ok (v, dg) /\ standard_algo_with_diagram HI' fuel' D' b' reverse_order' = Ok (v', dg') /\
    Permutation (pairings dg) (pairings dg')).
  { intros ro ro'. destruct (@C25_pairs_intrinsic HI K C F phi D b l Hsq fuel Hf ro) as (v & dg & E & N & H). destruct (@C25_pairs_intrinsic HI' K' C F phi D' b' l Hsq' fuel' Hf' ro') as (v' & dg' & E' & N' & H').
    exists v, dg, v', dg'. split; auto. split; auto. apply NoDup_Permutation; auto. intros [i j]. rewrite H, H'.
    split; intros [A B]; (split; [exact A|]); now apply (@embed_intrinsic K K' h Hh F C phi l _ _ Hnd HS _ HD i j A). }
  split; [exact HP|]. intros HU.
  destruct (HP false false) as (v & dg & v' & dg' & E & E' & H). exists v, dg, v', dg'. split; auto. split; auto. split; auto.
  destruct (@C26_essential_intrinsic HI K C F phi D b l Hsq HU fuel Hf) as (v0 & dg0 & E0 & N & HE). rewrite E in E0. injection E0 as <- <-.
  assert (HU' : forall c r, In c l -> mden (m_col D') c r <> f0 -> before l r c).
  { intros c r Hc Hr. apply HU; auto. intros Ez. apply Hr. rewrite HD, Ez by auto. apply Hh. }
  destruct (@C26_essential_intrinsic HI' K' C F phi D' b' l Hsq' HU' fuel' Hf') as (v0 & dg0 & E0 & N' & HE'). rewrite E' in E0. injection E0 as <- <-.
  apply NoDup_Permutation; auto. intros c. rewrite HE, HE'. apply (@embed_essential K K' h Hh F C phi l _ _ Hnd HS _ HD).
Qed.
Print Assumptions C107_standard.

Theorem C107_clearing :
  forall (HI HI' : heaps) (K K' : coeffT) (h : option K -> option K') (C F : ordT) (phi : C -> F) (D : fmatrix K C C F) (D' : fmatrix K' C C F) (sb sb' : split_basis C)
    (dims dims' : list nat) (blocks : list (list C)),
  field_embedding K K' h -> block_complex phi D sb dims blocks -> block_complex phi D' sb' dims' blocks ->
  (forall c r, In c (concat blocks) -> mden (m_col D') c r = h (mden (m_col D) c r)) ->
  forall fuel fuel', length (row_set (m_col D) (concat blocks)) < fuel -> length (row_set (m_col D') (concat blocks)) < fuel' ->
  exists rc dg rc' dg',
    build_with_diagram HI fuel D sb dims = Ok (rc, dg) /\ build_with_diagram HI' fuel' D' sb' dims' = Ok (rc', dg') /\
    Permutation (pairings dg) (pairings dg') /\ Permutation (essential dg) (essential dg').
Proof.
  intros HI HI' K K' h C F phi D D' sb sb' dims dims' blocks Hh HB HB' HD fuel fuel' Hf Hf'. pose proof (proj1 HB) as Hnd. set (l := concat blocks) in *.
  assert (HS : forall c r, In c l -> mden (m_col D) c r <> f0 -> In r (row_set (m_col D) l)).
  { intros c r Hc Hr. apply lincomb_row_set with (x := fun c' => if oeqb c c' then f1 else f0). now rewrite lincomb_unit. }
  destruct (@C32_clearing_intrinsic HI K C F phi D sb dims blocks HB fuel Hf) as (rc & dg & E & N1 & N2 & H).
  destruct (@C32_clearing_intrinsic HI' K' C F phi D' sb' dims' blocks HB' fuel' Hf') as (rc' & dg' & E' & N1' & N2' & H').
  exists rc, dg, rc', dg'. split; auto. split; auto.
  assert (Hbl : forall blk x y, In blk blocks -> before blk x y -> before l x y).
  { intros blk x y Hb (A & B & G & ->). apply in_split in Hb. destruct Hb as (P & Q & EQ). unfold l. rewrite EQ, concat_app. simpl. exists (concat P ++ A), B, (G ++ concat Q). rewrite <- !app_assoc. simpl. rewrite <- !app_assoc. reflexivity. }
  destruct (H l Hnd ltac:(reflexivity) Hbl) as [P1 P2]. destruct (H' l Hnd ltac:(reflexivity) Hbl) as [Q1 Q2]. split.
  - apply NoDup_Permutation; auto. intros [i j]. rewrite P1, Q1. split; intros [A B]; (split; [exact A|]); now apply (@embed_intrinsic K K' h Hh F C phi l _ _ Hnd HS _ HD i j A).
  - apply NoDup_Permutation; auto. intros c. rewrite P2, Q2. apply (@embed_essential K K' h Hh F C phi l _ _ Hnd HS _ HD).
Qed.
Print Assumptions C107_clearing.

Theorem C107_rips :
  forall (HI HI' : heaps) (K K' : coeffT) (h : option K -> option K') (F : ordT) (uw : N) (z : F) (d : list (list F)) (max_dim : nat),
  field_embedding K K' h -> rips_matrix z d -> 1 <= max_dim -> codes_fit uw (length d) (max_dim + 2) ->
  forall (L : list N) (fuel fuel' : nat), covers_simplices (length d) (max_dim + 2) L -> length L < fuel -> length L < fuel' ->
  exists rc dg rc' dg',
    rips_cohomology HI (K:=K) fuel uw z d max_dim = Ok (rc, dg) /\ rips_cohomology HI' (K:=K') fuel' uw z d max_dim = Ok (rc', dg') /\
    Permutation (pairings dg) (pairings dg') /\ essential dg = essential dg'.
Proof.
  intros HI HI' K K' h F uw z d m Hh Hd Hm Hfit L fuel fuel' HL Hf Hf'.
  destruct (@C44_cohomology_intrinsic HI K F uw z d m Hd Hm Hfit L fuel HL Hf) as (rc & dg & E1 & N1 & _ & H1).
  destruct (@C44_diagram_shape HI K F uw z d m Hd Hm Hfit L fuel HL Hf) as (rc0 & dg0 & E0 & _ & _ & _ & S1). rewrite E1 in E0. injection E0 as <- <-.
  destruct (@C44_cohomology_intrinsic HI' K' F uw z d m Hd Hm Hfit L fuel' HL Hf') as (rc' & dg' & E2 & N2 & _ & H2).
  destruct (@C44_diagram_shape HI' K' F uw z d m Hd Hm Hfit L fuel' HL Hf') as (rc0 & dg0 & E0 & _ & _ & _ & S2). rewrite E2 in E0. injection E0 as <- <-.
  exists rc, dg, rc', dg'. split; auto. split; auto. split; [|congruence].
  pose proof (some_phi_ok Hd) as Hphi. pose proof (@all_cells_order F z d m Hd Hm _ Hphi) as Ho. set (l := all_cells z d m) in *.
  destruct (@spec_exists K F z d Hd) as (_ & HB & _ & _). pose proof (Dc_coboundary z d HB) as HD. set (D := Dc z d (spec_boundary z d)) in HD.
  set (D' := fun c r => h (D c r) : option K').
  assert (HD' : rips_coboundary_matrix (length d) D').
  { destruct HD as [A1 A2]. split.
    - intros s t i Hs Ht Hfc. unfold D'. rewrite (A1 s t i Hs Ht Hfc). unfold sign. destruct (Nat.even i); [apply Hh|]. rewrite (embed_opp Hh). f_equal. apply Hh.
    - intros s r Hs Hr. apply A2; auto. intros Ez. apply Hr. unfold D'. rewrite Ez. apply Hh. }
  destruct (H1 _ D l Hphi HD Ho) as [P1 _]. destruct (H2 _ D' l Hphi HD' Ho) as [P2 _].
  assert (Hnd : NoDup (rev_basis l : list rN)) by (unfold rev_basis; apply FinFun.Injective_map_NoDup; [intros a b [=]; auto|]; apply NoDup_rev, Ho).
  assert (HS : forall c r : rN, In c (rev_basis l) -> rev_matrix D c r <> f0 -> In r (map (@Reverse N) L)).
  { intros c [r] Hc Hr. unfold rev_basis in Hc. apply in_map_iff in Hc. destruct Hc as (c' & <- & Hc). apply in_rev, Ho in Hc. destruct Hc as (s & Hs & Hl & ->). unfold rev_matrix in Hr. cbn [unrev] in Hr.
    apply (proj2 HD) in Hr; auto. destruct Hr as (t & i & Ht & Hfc & ->). apply in_map. apply HL; auto. rewrite (facet_length Hfc). lia. }
  apply NoDup_Permutation; auto. intros [i j]. rewrite P1, P2.
  split; intros [A B]; (split; [exact A|]); now apply (@embed_intrinsic K K' h Hh (rev_ord F) (rev_ord rips_index) (rev_filtration (some_phi z d)) (rev_basis l) (rev_matrix D) (map (@Reverse N) L) Hnd HS (rev_matrix D') ltac:(reflexivity) i j A).
Qed.
Print Assumptions C107_rips.

(** The field with four elements, as a user of the library might implement it. *)
Inductive gf4 : Type := G1 | Gw | Gv.
Definition gf4_eqb (x y : gf4) : bool := match x, y with G1, G1 | Gw, Gw | Gv, Gv => true | _, _ => false end.
Definition gf4_add (x y : gf4) : option gf4 :=
  match x, y with G1, G1 | Gw, Gw | Gv, Gv => None | G1, Gw | Gw, G1 => Some Gv | G1, Gv | Gv, G1 => Some Gw | Gw, Gv | Gv, Gw => Some G1 end.
Definition gf4_mul (x y : gf4) : gf4 := match x, y with G1, a => a | a, G1 => a | Gw, Gw => Gv | Gv, Gv => Gw | _, _ => G1 end.
Definition gf4_inv (x : gf4) : gf4 := match x with G1 => G1 | Gw => Gv | Gv => Gw end.
Lemma gf4_field : is_field gf4 gf4_add gf4_mul G1 (fun x => x) gf4_inv.
Proof.
  apply is_field_intro; simpl;
    repeat match goal with
           | |- forall x : option gf4, _ => intros [[]|]
           | |- forall x : gf4, _ => intros []
           end; reflexivity.
Qed.
Lemma gf4_eqb_eq x y : gf4_eqb x y = true <-> x = y.
Proof. destruct x, y; simpl; split; congruence. Qed.
Definition GF4_coeff : coeffT := CoeffT gf4 gf4_eqb gf4_add gf4_mul G1 (fun x => x) gf4_inv gf4_eqb_eq gf4_field.
Definition z2_to_gf4 (x : option Z2_coeff) : option GF4_coeff := match x with None => None | Some _ => Some G1 end.
Example C107_ex : field_embedding Z2_coeff GF4_coeff z2_to_gf4 /\
  exists rc dg rc' dg',
    rips_cohomology list_heaps (K:=Z2_coeff) 3000 (2 ^ 64) (0 : nat_ord) rp2 1 = Ok (rc, dg) /\
    rips_cohomology list_heaps (K:=GF4_coeff) 3000 (2 ^ 64) (0 : nat_ord) rp2 1 = Ok (rc', dg') /\
    pairings dg = pairings dg' /\ loops_of rp2 dg' = [(Ok 3, Ok 5)].
Proof.
  split.
  - split; [reflexivity|]. split; [reflexivity|]. split; intros [[]|] [[]|]; reflexivity.
  - assert (E : match rips_cohomology list_heaps (K:=Z2_coeff) 3000 (2 ^ 64) (0 : nat_ord) rp2 1, rips_cohomology list_heaps (K:=GF4_coeff) 3000 (2 ^ 64) (0 : nat_ord) rp2 1 with
      | Ok (_, dg), Ok (_, dg') => pairings dg = pairings dg' /\ loops_of rp2 dg' = [(Ok 3, Ok 5)] | _, _ => False end) by (vm_compute; split; reflexivity).
    destruct (rips_cohomology list_heaps (K:=Z2_coeff) 3000 (2 ^ 64) (0 : nat_ord) rp2 1) as [[rc dg]| |]; [|contradiction..].
    destruct (rips_cohomology list_heaps (K:=GF4_coeff) 3000 (2 ^ 64) (0 : nat_ord) rp2 1) as [[rc' dg']| |]; [|contradiction..]. exists rc, dg, rc', dg'. tauto.
Qed.
