(** The persistent homology of the Vietoris-Rips filtration of [n] points equally spaced on a circle, in degree 1. *)
From Verif Require Import Base Fields FieldsFacts Spec LinAlg SpecRips SpecPH RipsCode RipsBasis RipsFacts RipsComplex Graded Duality RipsPersistence PropRipsPersistence BettiMaps PropRipsComponents.
From Coq Require Import Ring Field Sorted Lia Arith.
Set Implicit Arguments.

(** phlite_rips/circle_distance_matrix.py 4-8: [min((j - i) % n, (i - j) % n)]; Python's [%] is non-negative, so [+ n] keeps the
    natural-number subtraction exact. *)
Definition circ (n i j : nat) : nat := Nat.min ((j + n - i) mod n) ((i + n - j) mod n).
(** 11-14: the rows; [iota] reads the printed integers as filtration values *)
Definition circle_matrix {F : ordT} (iota : nat -> F) (n : nat) : list (list F) :=
  map (fun i => map (fun j => iota (circ n i j)) (seq 0 n)) (seq 0 n).

Lemma circ_lt n i j : i < n -> j < n -> circ n i j = if i <? j then Nat.min (j - i) (n - (j - i)) else if j <? i then Nat.min (i - j) (n - (i - j)) else 0.
Proof.
  intros Hi Hj. unfold circ. destruct (Nat.ltb_spec i j); [|destruct (Nat.ltb_spec j i)].
  - replace (j + n - i) with ((j - i) + 1 * n) by lia. rewrite Nat.mod_add by lia. rewrite (Nat.mod_small (j - i)) by lia. rewrite (Nat.mod_small (i + n - j)) by lia. f_equal. lia.
  - replace (i + n - j) with ((i - j) + 1 * n) by lia. rewrite Nat.mod_add by lia. rewrite (Nat.mod_small (i - j)) by lia. rewrite (Nat.mod_small (j + n - i)) by lia. rewrite Nat.min_comm. f_equal. lia.
  - assert (i = j) by lia. subst j. replace (i + n - i) with (0 + 1 * n) by lia. rewrite Nat.mod_add by lia. now rewrite Nat.mod_small by lia.
Qed.
Lemma circ_step n i m : i < n -> m <= n -> circ n i ((i + m) mod n) <= m.
Proof.
  intros Hi Hm. assert (Hl : (i + m) mod n < n) by (apply Nat.mod_upper_bound; lia). rewrite circ_lt by auto.
  assert (E : (i + m) mod n = i + m \/ (i + m) mod n = i + m - n /\ n <= i + m).
  { destruct (lt_dec (i + m) n); [left; now apply Nat.mod_small|right]. split; [|lia]. replace (i + m) with ((i + m - n) + 1 * n) at 1 by lia. rewrite Nat.mod_add by lia.
    destruct (Nat.eq_dec (i + m - n) n); [|apply Nat.mod_small; lia]. lia. }
  destruct (Nat.ltb_spec i ((i + m) mod n)); [|destruct (Nat.ltb_spec ((i + m) mod n) i)]; lia.
Qed.

Section Circle.
  Context {K : coeffT} {F : ordT} (iota : nat -> F) (n : nat).
  Hypothesis Hmono : forall a b, a < b -> olt (iota a) (iota b).
  Hypothesis Hn : 1 <= n.
  Notation d := (circle_matrix iota n).
  Notation z := (iota 0).
  Lemma circle_length : length d = n.
  Proof. unfold circle_matrix. now rewrite map_length, seq_length. Qed.
  Lemma circle_dist i j : i < n -> j < n -> dist z d i j = iota (circ n i j).
  Proof.
    intros Hi Hj. unfold dist, circle_matrix. rewrite (nth_indep _ [] (map (fun j => iota (circ n 0 j)) (seq 0 n))) by (rewrite map_length, seq_length; auto).
    rewrite (map_nth (fun i => map (fun j => iota (circ n i j)) (seq 0 n))). rewrite seq_nth by auto. cbn [Nat.add].
    rewrite (nth_indep _ z (iota (circ n i 0))) by (rewrite map_length, seq_length; auto). rewrite (map_nth (fun j => iota (circ n i j))). now rewrite seq_nth.
  Qed.
  Lemma iota_le a b : a <= b -> ole (iota a) (iota b).
  Proof. intros H. destruct (Nat.eq_dec a b) as [->|]; [apply ole_refl|]. apply olt_le, Hmono. lia. Qed.
  Lemma iota_le_inv a b : ole (iota a) (iota b) -> a <= b.
  Proof. intros H. destruct (le_lt_dec a b) as [|Hlt]; auto. exfalso. apply Hmono in Hlt. apply olt_not_le in Hlt. auto. Qed.
  Lemma circle_is_distance_matrix : distance_matrix z d.
  Proof.
    split; [|split; [|split]].
    - intros row H. rewrite circle_length. apply in_map_iff in H. destruct H as (i & <- & _). now rewrite map_length, seq_length.
    - rewrite circle_length. intros i j Hi Hj. rewrite !circle_dist by auto. f_equal. unfold circ. apply Nat.min_comm.
    - rewrite circle_length. intros i Hi. rewrite circle_dist by auto. rewrite circ_lt by auto. now rewrite Nat.ltb_irrefl.
    - rewrite circle_length. intros i j Hi Hj. rewrite circle_dist by auto. apply iota_le. lia.
  Qed.

  Variables (phi : N_ord -> F) (D : N_ord -> vec K N_ord) (dim : N_ord -> Z) (k : nat) (l : list N_ord).
  Hypothesis Hphi : rips_filtration z d phi.
  Hypothesis HD : rips_boundary_matrix n D.
  Hypothesis Hdim : simplex_dim n dim.
  Hypothesis Hk : 3 <= k.
  Hypothesis Hl : lists_simplices n k l.
  Add Field KFci : (F_field K).
  Definition e1 (v : nat) : vec K N_ord := fun c => if oeqb (code n [v] : N_ord) c then f1 else f0.
  Definition e2 (i j : nat) : vec K N_ord := fun c => if oeqb (code n [i; j] : N_ord) c then f1 else f0.
  (** the edge from [i] to [j], oriented *)
  Definition E (i j : nat) : vec K N_ord := fun c => if i <? j then e2 i j c else if j <? i then fopp (e2 j i c) else f0.
  Lemma E_anti i j c : E j i c = fopp (E i j c).
  Proof. unfold E. destruct (Nat.ltb_spec i j); destruct (Nat.ltb_spec j i); try lia; ring. Qed.
  Lemma E_refl i c : E i i c = f0.
  Proof. unfold E. now rewrite Nat.ltb_irrefl. Qed.
  Lemma Hphi' : forall s, simplex n s -> diameter z d s (phi (code n s)).
  Proof. intros s Hs. pose proof Hphi as H. red in H. rewrite circle_length in H. now apply H. Qed.
  Lemma edge' i j : i < j -> j < n -> simplex n [i; j].
  Proof. intros. split; [discriminate|]. split; repeat constructor; auto; lia. Qed.
  Lemma tri i j m : i < j -> j < m -> m < n -> simplex n [i; j; m].
  Proof. intros. split; [discriminate|]. split; repeat constructor; auto; lia. Qed.
  Lemma code2_inj i j i' j' : i < n -> j < n -> i' < n -> j' < n -> code n [i; j] = code n [i'; j'] -> i = i' /\ j = j'.
  Proof. intros H1 H2 H3 H4 H. apply code_inj in H; [injection H; auto|repeat constructor; auto|repeat constructor; auto]. Qed.
  Lemma phi_edge' i j : i < j -> j < n -> phi (code n [i; j]) = iota (circ n i j).
  Proof.
    intros Hi Hj. rewrite <- circle_dist by lia. eapply diameter_unique; [apply Hphi', (edge' Hi Hj)|]. pose proof circle_is_distance_matrix as (_ & Hsym & Hz & Hpos). rewrite circle_length in *.
    split; [exists i, j; cbn; auto|]. intros a b [<-|[<-|[]]] [<-|[<-|[]]]; rewrite ?Hz by lia; try apply Hpos; try apply ole_refl; try lia. rewrite Hsym by lia. apply ole_refl.
  Qed.
  Lemma D_tri a b c r : a < b -> b < c -> c < n -> D (code n [a; b; c]) r = fadd (fsub (e2 b c r) (e2 a c r)) (e2 a b r).
  Proof.
    intros H1 H2 H3. pose proof (tri H1 H2 H3) as Ht. destruct HD as [D1 D2].
    assert (F0 : facet [a; b; c] 0 [b; c]) by (exists [], a, [b; c]; auto). assert (F1 : facet [a; b; c] 1 [a; c]) by (exists [a], b, [c]; auto). assert (F2 : facet [a; b; c] 2 [a; b]) by (exists [a; b], c, []; auto).
    assert (S0 : simplex n [b; c]) by (apply edge'; lia). assert (S1 : simplex n [a; c]) by (apply edge'; lia). assert (S2 : simplex n [a; b]) by (apply edge'; lia).
    assert (X : forall i j i' j', i < n -> j < n -> i' < n -> j' < n -> i <> i' \/ j <> j' -> e2 i j (code n [i'; j']) = f0).
    { intros i j i' j' A1 A2 A3 A4 Hne. unfold e2. destruct (oeqb_spec (code n [i; j] : N_ord) (code n [i'; j'])) as [Ec|_]; auto. apply code2_inj in Ec; auto. lia. }
    assert (Y : forall i j, e2 i j (code n [i; j]) = f1) by (intros i j; unfold e2; now rewrite oeqb_refl).
    destruct (oeqb_spec (code n [b; c] : N_ord) r) as [<-|N0]; [rewrite (D1 _ _ _ S0 Ht F0), Y, !X by lia; unfold sign; cbn; ring|].
    destruct (oeqb_spec (code n [a; c] : N_ord) r) as [<-|N1]; [rewrite (D1 _ _ _ S1 Ht F1), Y, !X by lia; unfold sign; cbn; ring|].
    destruct (oeqb_spec (code n [a; b] : N_ord) r) as [<-|N2]; [rewrite (D1 _ _ _ S2 Ht F2), Y, !X by lia; unfold sign; cbn; ring|].
    assert (Zr : forall i j, code n [i; j] <> r -> e2 i j r = f0) by (intros i j Hne; unfold e2; destruct (oeqb_spec (code n [i; j] : N_ord) r); [contradiction|auto]).
    rewrite !Zr by auto. destruct (fscalar_dec (D (code n [a; b; c]) r)) as [E0|Hne]; [rewrite E0; ring|]. exfalso. destruct (D2 _ _ Ht Hne) as (u & x & Hu & (l1 & y & l2 & Eu & -> & _) & ->).
    destruct l1 as [|v0 [|v1 [|v2 l1]]]; cbn in Eu; injection Eu; intros; subst; auto. destruct l1; discriminate.
  Qed.
  Lemma D_edge' i j r : i < j -> j < n -> D (code n [i; j]) r = fsub (e1 j r) (e1 i r).
  Proof.
    pose proof (@D_edge K F d D) as H. unfold e_ in H. rewrite circle_length in H. exact (H k HD ltac:(lia) i j r).
  Qed.
  Lemma l_in' c : In c l <-> exists s0, simplex n s0 /\ length s0 <= k /\ c = code n s0.
  Proof. apply (proj2 Hl). Qed.

  (** ** boundaries at time [t] *)
  Section Time.
  Variable t : F.
  Definition near (i j : nat) : Prop := ole (iota (circ n i j)) t.
  Notation bnd := (boundary_at phi dim (-1) l D 1 t).
  Lemma bnd_eq (u v : vec K N_ord) : (forall r, u r = v r) -> bnd u -> bnd v.
  Proof. apply boundary_ext. Qed.
  Lemma circ_sym i j : circ n i j = circ n j i.
  Proof. apply Nat.min_comm. Qed.
  Lemma near_sym i j : near i j -> near j i.
  Proof. unfold near. now rewrite circ_sym. Qed.
  Lemma tri_sorted a b c : a < b -> b < c -> c < n -> near a b -> near b c -> near a c -> bnd (fun r => fadd (fsub (e2 b c r) (e2 a c r)) (e2 a b r)).
  Proof.
    intros H1 H2 H3 Hab Hbc Hac. pose proof (tri H1 H2 H3) as Ht. assert (Hin : In (code n [a; b; c] : N_ord) l) by (apply l_in'; exists [a; b; c]; split; auto).
    exists (fun x => if oeqb (code n [a; b; c] : N_ord) x then f1 else f0). split.
    - intros x. destruct (oeqb_spec (code n [a; b; c] : N_ord) x) as [<-|]; [|congruence]. intros _. split; auto. split; [rewrite Hdim by auto; reflexivity|].
      destruct (Hphi' Ht) as [(i & j & Hi & Hj & Ed) _]. rewrite <- Ed. assert (Hb : i < n /\ j < n) by (destruct Hi as [<-|[<-|[<-|[]]]]; destruct Hj as [<-|[<-|[<-|[]]]]; lia). rewrite circle_dist by tauto.
      assert (Hrefl : forall v, v < n -> near v v) by (intros v Hv; unfold near; rewrite circ_lt by auto; rewrite Nat.ltb_irrefl; eapply ole_trans; [|exact Hab]; apply iota_le; lia).
      pose proof (near_sym Hab). pose proof (near_sym Hbc). pose proof (near_sym Hac).
      destruct Hi as [<-|[<-|[<-|[]]]]; destruct Hj as [<-|[<-|[<-|[]]]]; auto; apply Hrefl; lia.
    - intros r. unfold bdry. rewrite lincomb_unit; [now apply D_tri|apply Hl|auto].
  Qed.
  Lemma triangle i j m : i < n -> j < n -> m < n -> near i j -> near j m -> near m i -> bnd (fun r => fadd (fadd (E i j r) (E j m r)) (E m i r)).
  Proof.
    intros Hi Hj Hm H1 H2 H3. pose proof (near_sym H1). pose proof (near_sym H2). pose proof (near_sym H3).
    assert (Hz : (forall r, fadd (fadd (E i j r) (E j m r)) (E m i r) = f0) -> bnd (fun r => fadd (fadd (E i j r) (E j m r)) (E m i r))) by (intros Hr; eapply bnd_eq; [|apply bnd_zero]; intros r; symmetry; apply Hr).
    destruct (Nat.eq_dec i j) as [<-|N1]; [apply Hz; intros r; rewrite E_refl, (E_anti i m); ring|].
    destruct (Nat.eq_dec j m) as [<-|N2]; [apply Hz; intros r; rewrite E_refl, (E_anti i j); ring|].
    destruct (Nat.eq_dec i m) as [<-|N3]; [apply Hz; intros r; rewrite E_refl, (E_anti i j); ring|].
    assert (P : forall a b c, a < b -> b < c -> c < n -> near a b -> near b c -> near a c -> bnd (fun r => fadd (fadd (E a b r) (E b c r)) (E c a r))).
    { intros a b c A1 A2 A3 B1 B2 B3. eapply bnd_eq; [|apply (tri_sorted A1 A2 A3 B1 B2 B3)]. intros r. unfold E.
      destruct (Nat.ltb_spec a b); [|lia]. destruct (Nat.ltb_spec b c); [|lia]. destruct (Nat.ltb_spec c a); [lia|]. destruct (Nat.ltb_spec a c); [|lia]. ring. }
    assert (Q : forall a b c, a < b -> b < c -> c < n -> near a b -> near b c -> near a c -> bnd (fun r => fadd (fadd (E c b r) (E b a r)) (E a c r))).
    { intros a b c A1 A2 A3 B1 B2 B3. eapply bnd_eq; [|apply (bnd_scale (fopp f1) (P a b c A1 A2 A3 B1 B2 B3))]. intros r. cbv beta. rewrite (E_anti a b), (E_anti b c), (E_anti c a). ring. }
    destruct (lt_dec i j) as [A|A]; destruct (lt_dec j m) as [B|B]; destruct (lt_dec i m) as [C|C]; try lia.
    - apply P; auto.
    - eapply bnd_eq; [|apply (Q i m j)]; auto; try lia. intros r. cbv beta. ring.
    - eapply bnd_eq; [|apply (P m i j)]; auto; try lia. intros r. cbv beta. ring.
    - eapply bnd_eq; [|apply (Q j i m)]; auto; try lia. intros r. cbv beta. ring.
    - eapply bnd_eq; [|apply (P j m i)]; auto; try lia. intros r. cbv beta. ring.
    - apply Q; auto; lia.
  Qed.
  (** ** arcs: [m] unit steps from [i] *)
  Definition U (q : nat_ord) : vec K N_ord := E q ((q + 1) mod n).
  Fixpoint Sarc (i m : nat) : vec K N_ord := match m with 0 => fun _ => f0 | Datatypes.S m' => fun r => fadd (Sarc i m' r) (U ((i + m') mod n) r) end.
  Lemma mod_lt a : a mod n < n.
  Proof. apply Nat.mod_upper_bound. lia. Qed.
  Lemma mod_step i m : ((i + m) mod n + 1) mod n = (i + Datatypes.S m) mod n.
  Proof. rewrite Nat.add_mod_idemp_l by lia. f_equal. lia. Qed.
  Lemma down a b : a <= b -> ole (iota b) t -> ole (iota a) t.
  Proof. intros H1 H2. eapply ole_trans; [apply iota_le, H1|exact H2]. Qed.
  Lemma arc i m : i < n -> m <= n -> ole (iota m) t -> bnd (fun r => fsub (E i ((i + m) mod n) r) (Sarc i m r)).
  Proof.
    intros Hi. induction m as [|m IH]; intros Hm Ht.
    - eapply bnd_eq; [|apply bnd_zero]. intros r. cbn [Sarc]. rewrite Nat.add_0_r, Nat.mod_small by auto. rewrite E_refl. ring.
    - assert (T : bnd (fun r => fadd (fadd (E i ((i + m) mod n) r) (E ((i + m) mod n) ((i + Datatypes.S m) mod n) r)) (E ((i + Datatypes.S m) mod n) i r))).
      { apply triangle; auto using mod_lt.
        - eapply down; [apply circ_step; auto; lia|]. eapply down; [|exact Ht]. lia.
        - rewrite <- mod_step. eapply down; [apply circ_step; [apply mod_lt|lia]|]. eapply down; [|exact Ht]. lia.
        - apply near_sym. eapply down; [apply circ_step; auto|exact Ht]. }
      assert (IH' := IH ltac:(lia) (@down m (Datatypes.S m) ltac:(lia) Ht)).
      eapply bnd_eq; [|apply (bnd_add IH' (bnd_scale (fopp f1) T))]. intros r. cbv beta. cbn [Sarc]. unfold U. rewrite mod_step. rewrite (E_anti i ((i + Datatypes.S m) mod n)). ring.
  Qed.
  (** ** every edge is homologous to unit steps *)
  Notation steps := (seq 0 n : list nat_ord).
  Definition reducible (x : vec K N_ord) : Prop := exists a : vec K nat_ord, bnd (fun r => fsub (x r) (lincomb steps a U r)).
  Lemma red_zero x : (forall r, x r = f0) -> reducible x.
  Proof. intros Hx. exists (fun _ => f0). eapply bnd_eq; [|apply bnd_zero]. intros r. rewrite Hx, lincomb_0 by auto. ring. Qed.
  Lemma red_eq x y : (forall r, x r = y r) -> reducible x -> reducible y.
  Proof. intros Hx (a & Ha). exists a. eapply bnd_eq; [|exact Ha]. intros r. cbv beta. now rewrite Hx. Qed.
  Lemma red_add x y : reducible x -> reducible y -> reducible (fun r => fadd (x r) (y r)).
  Proof. intros (a & Ha) (b & Hb). exists (fun q => fadd (a q) (b q)). eapply bnd_eq; [|apply (bnd_add Ha Hb)]. intros r. cbv beta. rewrite lincomb_add. ring. Qed.
  Lemma red_scale c x : reducible x -> reducible (fun r => fmul c (x r)).
  Proof. intros (a & Ha). exists (fun q => fmul c (a q)). eapply bnd_eq; [|apply (bnd_scale c Ha)]. intros r. cbv beta. rewrite lincomb_scale. ring. Qed.
  Lemma red_bnd x y : bnd (fun r => fsub (x r) (y r)) -> reducible y -> reducible x.
  Proof. intros Hb (a & Ha). exists a. eapply bnd_eq; [|apply (bnd_add Hb Ha)]. intros r. cbv beta. ring. Qed.
  Lemma red_U q : q < n -> reducible (U q).
  Proof.
    intros Hq. exists (fun q' => if oeqb (q : nat_ord) q' then f1 else f0). eapply bnd_eq; [|apply bnd_zero]. intros r.
    rewrite lincomb_unit; [ring|apply seq_NoDup|apply in_seq; lia].
  Qed.
  Lemma red_S i m : reducible (Sarc i m).
  Proof. induction m as [|m IH]; cbn [Sarc]; [apply red_zero; auto|]. apply red_add; auto. apply red_U, mod_lt. Qed.
  Lemma red_edge i j : i < j -> j < n -> near i j -> reducible (E i j).
  Proof.
    intros Hi Hj Hne. unfold near in Hne. rewrite circ_lt in Hne by lia. destruct (Nat.ltb_spec i j); [|lia]. destruct (Nat.min_spec (j - i) (n - (j - i))) as [[_ Em]|[_ Em]]; rewrite Em in Hne.
    - pose proof (@arc i (j - i) ltac:(lia) ltac:(lia) Hne) as H1. replace ((i + (j - i)) mod n) with j in H1 by (rewrite Nat.mod_small; lia). eapply red_bnd; [exact H1|apply red_S].
    - pose proof (@arc j (n - (j - i)) ltac:(lia) ltac:(lia) Hne) as H1. replace ((j + (n - (j - i))) mod n) with i in H1.
      2:{ replace (j + (n - (j - i))) with (i + 1 * n) by lia. rewrite Nat.mod_add by lia. now rewrite Nat.mod_small by lia. }
      assert (R : reducible (E j i)) by (eapply red_bnd; [exact H1|apply red_S]). eapply red_eq; [|apply (red_scale (fopp f1) R)]. intros r. cbv beta. rewrite (E_anti i j). ring.
  Qed.
  Lemma red_chain u : chain_at phi dim l 1 t u -> reducible u.
  Proof.
    intros Hu. apply (@red_eq (lincomb l u (fun c r => if oeqb c r then f1 else f0))).
    - intros r. destruct (fscalar_dec (u r)) as [Er|Hr].
      + rewrite Er. apply lincomb_0. intros c _. destruct (oeqb_spec c r) as [->|]; auto.
      + unfold lincomb. rewrite (vsum_single _ (a:=r)); [rewrite oeqb_refl; destruct (F_ring K); rewrite Rmul_comm; apply Rmul_1_l|apply Hl|apply (Hu r Hr)|].
        intros b _ Hb. destruct (oeqb_spec b r); [contradiction|ring].
    - assert (H : forall L, reducible (lincomb L u (fun c r => if oeqb c r then f1 else f0))); [|apply H].
      induction L as [|c L IH]; [apply red_zero; reflexivity|].
      apply (@red_eq (fun r => fadd (fmul (u c) (if oeqb c r then f1 else f0)) (lincomb L u (fun c r => if oeqb c r then f1 else f0) r))); [reflexivity|].
      apply (@red_add (fun r => fmul (u c) (if oeqb c r then f1 else f0))); auto.
      destruct (fscalar_dec (u c)) as [Ec|Hc]; [apply red_zero; intros r; rewrite Ec; ring|].
      apply (@red_scale (u c) (fun r => if oeqb c r then f1 else f0)).
      destruct (Hu c Hc) as (Hin & Hg & Ht). apply l_in' in Hin. destruct Hin as (s0 & Hs0 & _ & ->). rewrite Hdim in Hg by auto.
      destruct s0 as [|i [|j [|]]]; cbn [length] in Hg; try lia. destruct Hs0 as (_ & Hso & Hb). inversion Hso as [|? ? _ Hlt]; subst. inversion Hlt; subst. inversion Hb as [|? ? Hi Hb']; subst. inversion Hb'; subst.
      rewrite phi_edge' in Ht by auto. eapply red_eq; [|apply (@red_edge i j); auto]. intros r. unfold E. destruct (Nat.ltb_spec i j); [reflexivity|lia].
  Qed.
  (** ** boundaries of edges *)
  Lemma bdry_e2 i j r : i < j -> j < n -> bdry l D (e2 i j) r = fsub (e1 j r) (e1 i r).
  Proof.
    intros Hi Hj. unfold bdry. transitivity (D (code n [i; j]) r); [|now apply D_edge']. apply lincomb_unit; [apply Hl|]. apply l_in'. exists [i; j]. split; [now apply edge'|]. cbn. split; auto. lia.
  Qed.
  Lemma bdry_E i j r : i < n -> j < n -> bdry l D (E i j) r = fsub (e1 j r) (e1 i r).
  Proof.
    intros Hi Hj. unfold E. destruct (Nat.ltb_spec i j); [apply (@bdry_e2 i j r); auto|]. destruct (Nat.ltb_spec j i).
    - transitivity (bdry l D (fun c => fmul (fopp f1) (e2 j i c)) r); [unfold bdry; apply lincomb_ext; auto; intros; ring|]. unfold bdry. rewrite lincomb_scale. fold (bdry l D (e2 j i) r). rewrite bdry_e2 by auto. ring.
    - assert (i = j) by lia. subst j. unfold bdry. rewrite lincomb_0 by auto. ring.
  Qed.
  Lemma bdry_bnd x r : bnd x -> bdry l D x r = f0.
  Proof.
    intros (w & Hw & Ew). transitivity (bdry l D (lincomb l w D) r); [unfold bdry; apply lincomb_ext; auto; intros; symmetry; apply Ew|].
    unfold bdry. rewrite <- lincomb_assoc. apply lincomb_0. intros c Hc. right. destruct (sb_complex HD Hl) as [_ C2]. apply C2. exact Hc.
  Qed.
  Definition gamma : vec K N_ord := lincomb steps (fun _ => f1) U.
  Lemma bdry_steps a r : bdry l D (lincomb steps a U) r = lincomb steps a (fun q r => fsub (e1 ((q + 1) mod n) r) (e1 q r)) r.
  Proof.
    unfold bdry. rewrite <- (lincomb_assoc steps l a U D r). apply lincomb_ext; auto. intros q Hq. apply in_seq in Hq. apply (@bdry_E q ((q + 1) mod n) r); [lia|apply mod_lt].
  Qed.
  Lemma e1_at v w : v < n -> w < n -> e1 v (code n [w]) = if v =? w then f1 else f0.
  Proof.
    intros Hv Hw. unfold e1. destruct (oeqb_spec (code n [v] : N_ord) (code n [w])) as [Ec|Hne]; destruct (Nat.eqb_spec v w) as [E'|Hne']; auto.
    - apply code_inj in Ec; [congruence|repeat constructor; auto|repeat constructor; auto].
    - subst. contradiction.
  Qed.
  Lemma steps_const a : (forall r, bdry l D (lincomb steps a U) r = f0) -> forall q, q < n -> a q = a 0.
  Proof.
    intros H. induction q as [|q IH]; intros Hq; auto. rewrite <- IH by lia. specialize (H (code n [Datatypes.S q])). rewrite bdry_steps in H.
    rewrite (lincomb_sub2 steps a (fun q r => e1 ((q + 1) mod n) r) (fun q r => e1 q r)) in H. unfold lincomb in H.
    rewrite (vsum_single _ (a:=q)) in H; [|apply seq_NoDup|apply in_seq; lia|].
    - rewrite (vsum_single _ (a:=Datatypes.S q)) in H; [|apply seq_NoDup|apply in_seq; lia|].
      + rewrite !e1_at in H by (auto; apply mod_lt). rewrite Nat.mod_small in H by lia. rewrite Nat.add_1_r, !Nat.eqb_refl in H.
        revert H. generalize (a q), (a (Datatypes.S q)). intros x y H. transitivity (fsub x (fsub (fmul x f1) (fmul y f1))); [ring|]. rewrite H. ring.
      + intros b Hb Hne. apply in_seq in Hb. rewrite e1_at by lia. destruct (Nat.eqb_spec b (Datatypes.S q)); [contradiction|ring].
    - intros b Hb Hne. apply in_seq in Hb. rewrite e1_at by (auto; apply mod_lt). destruct (Nat.eqb_spec ((b + 1) mod n) (Datatypes.S q)) as [Em|]; [|ring]. exfalso.
      destruct (Nat.eq_dec (b + 1) n) as [En|]; [rewrite En, Nat.mod_same in Em by lia; discriminate|]. rewrite Nat.mod_small in Em by lia. apply Hne. lia.
  Qed.
  Lemma gamma_scale a r : (forall q, q < n -> a q = a 0) -> lincomb steps a U r = fmul (a 0) (gamma r).
  Proof. intros H. unfold gamma. rewrite <- lincomb_scale. apply lincomb_ext; auto. intros q Hq. apply in_seq in Hq. rewrite H by lia. ring. Qed.
  Lemma cycle_gamma u : cycle_at phi dim l D 1 t u -> exists a : option K, bnd (fun r => fsub (u r) (fmul a (gamma r))).
  Proof.
    intros [Hu Hc]. destruct (red_chain Hu) as (a & Ha). exists (a 0). eapply bnd_eq; [|exact Ha]. intros r. cbv beta. rewrite gamma_scale; auto. apply steps_const. intros r'.
    pose proof (bdry_bnd r' Ha) as H. assert (Eq : bdry l D (fun r => fsub (u r) (lincomb steps a U r)) r' = fsub (bdry l D u r') (bdry l D (lincomb steps a U) r')).
    { unfold bdry. transitivity (lincomb l (fun c => fadd (u c) (fmul (fopp f1) (lincomb steps a U c))) D r'); [apply lincomb_ext; auto; intros; ring|]. rewrite lincomb_add, lincomb_scale. ring. }
    rewrite Eq, Hc in H. revert H. generalize (bdry l D (lincomb steps a U) r'). intros x H. transitivity (fopp (fsub f0 x)); [ring|]. rewrite H. ring.
  Qed.
  Lemma steps_shift (g : nat -> option K) : vsum (seq 0 n) (fun q => g ((q + 1) mod n)) = vsum (seq 0 n) g.
  Proof.
    destruct n as [|n'] eqn:En; [lia|]. rewrite seq_S at 1. rewrite vsum_app. cbn [Nat.add]. replace (vsum [n'] (fun q => g ((q + 1) mod Datatypes.S n'))) with (fadd (g 0) f0).
    2:{ cbn [vsum fold_right]. rewrite Nat.add_1_r, Nat.mod_same by lia. reflexivity. }
    cbn [seq]. transitivity (fadd (g 0) (vsum (seq 1 n') g)); [|reflexivity]. rewrite <- seq_shift, vsum_map.
    rewrite (vsum_ext (seq 0 n') (fun q => g ((q + 1) mod Datatypes.S n')) (fun q => g (Datatypes.S q))); [ring|]. intros q Hq. apply in_seq in Hq. rewrite Nat.mod_small by lia. f_equal. lia.
  Qed.
  Lemma gamma_cycle : ole (iota 1) t -> cycle_at phi dim l D 1 t gamma.
  Proof.
    intros Ht. split.
    - intros c Hc. assert (Hex : exists q, q < n /\ U q c <> f0).
      { destruct (lincomb_nonzero2 _ _ _ _ Hc) as (q & Hq & _ & HU). apply in_seq in Hq. exists q. split; [lia|exact HU]. }
      destruct Hex as (q & Hq & HU). unfold U, E in HU. assert (Hnr : near q ((q + 1) mod n)) by (eapply down; [apply circ_step; auto; lia|exact Ht]). pose proof (mod_lt (q + 1)) as Hm.
      assert (X : forall i j, i < j -> j < n -> near i j -> e2 i j c <> f0 -> In c l /\ dim c = 1%Z /\ ole (phi c) t).
      { intros i j Hi Hj Hij He. unfold e2 in He. destruct (oeqb_spec (code n [i; j] : N_ord) c) as [<-|]; [|congruence]. split; [apply l_in'; exists [i; j]; split; [now apply edge'|cbn; split; auto; lia]|].
        split; [rewrite Hdim by (now apply edge'); reflexivity|]. now rewrite phi_edge'. }
      destruct (Nat.ltb_spec q ((q + 1) mod n)); [eapply X; eauto|]. destruct (Nat.ltb_spec ((q + 1) mod n) q); [|congruence].
      eapply (X ((q + 1) mod n) q); eauto using near_sym. intros Ez. apply HU. rewrite Ez. ring.
    - intros r. unfold gamma. rewrite bdry_steps. rewrite (lincomb_sub2 steps (fun _ => f1) (fun q r => e1 ((q + 1) mod n) r) (fun q r => e1 q r)). unfold lincomb.
      rewrite (vsum_ext steps _ (fun q => e1 ((q + 1) mod n) r)) by (intros; ring). rewrite (vsum_ext steps (fun a => fmul f1 (e1 a r)) (fun q => e1 q r)) by (intros; ring).
      pose proof (steps_shift (fun q => e1 q r)) as Hs. etransitivity; [apply f_equal2; [exact Hs|reflexivity]|]. set (x := vsum (seq 0 n) (fun q => e1 q r)) at 1. assert (Hx : forall y : option K, fsub y y = f0) by (intros; ring). exact (Hx x).
  Qed.
  (** ** at a third of the circle the cycle bounds *)
  Lemma S_add i a b r : i < n -> Sarc i (a + b) r = fadd (Sarc i a r) (Sarc ((i + a) mod n) b r).
  Proof.
    intros Hi. induction b as [|b IH]; [rewrite Nat.add_0_r; cbn [Sarc]; ring|]. rewrite Nat.add_succ_r. cbn [Sarc]. rewrite IH. rewrite Nat.add_mod_idemp_l by lia. rewrite Nat.add_assoc. ring.
  Qed.
  Lemma S_steps m r : m <= n -> Sarc 0 m r = lincomb (seq 0 m : list nat_ord) (fun _ => f1) U r.
  Proof.
    induction m as [|m IH]; intros Hm; [reflexivity|]. rewrite seq_S. transitivity (fadd (lincomb (seq 0 m : list nat_ord) (fun _ => f1) U r) (lincomb ([0 + m] : list nat_ord) (fun _ => f1) U r)).
    - rewrite <- IH by lia. cbn [Sarc Nat.add]. rewrite Nat.mod_small by lia. f_equal. unfold lincomb. cbn [vsum fold_right]. generalize (U m r). intros x. change (x = fadd (fmul f1 x) f0). ring.
    - symmetry. apply (lincomb_app (seq 0 m : list nat_ord) ([0 + m] : list nat_ord)).
  Qed.
  Definition third : nat := (n + 2) / 3.
  Lemma third_spec : n <= 3 * third <= n + 2.
  Proof. unfold third. pose proof (Nat.div_mod (n + 2) 3 ltac:(lia)). pose proof (Nat.mod_upper_bound (n + 2) 3 ltac:(lia)). lia. Qed.
  Lemma gamma_bounds : ole (iota third) t -> bnd gamma.
  Proof.
    intros Ht. pose proof third_spec as H3. destruct (Nat.eq_dec n 1) as [E1|Hne].
    - eapply bnd_eq; [|apply bnd_zero]. intros r. unfold gamma. symmetry. apply lincomb_0. intros q Hq. right. apply in_seq in Hq. assert (q = 0) by lia. subst q. unfold U. rewrite E1. apply E_refl.
    - set (a := third) in *. assert (Ha : a < n) by lia. assert (H2a : a + a <= n) by lia. set (b := n - (a + a)). assert (Hb : b <= a) by lia.
      assert (A1 := @arc 0 a ltac:(lia) ltac:(lia) Ht). assert (A2 := @arc a a Ha ltac:(lia) Ht). assert (A3 := @arc ((a + a) mod n) b (mod_lt _) ltac:(lia) (down Hb Ht)).
      rewrite Nat.add_0_l in A1. rewrite (Nat.mod_small a) in A1 by auto.
      replace (((a + a) mod n + b) mod n) with 0 in A3.
      2:{ rewrite Nat.add_mod_idemp_l by lia. replace (a + a + b) with n by lia. now rewrite Nat.mod_same by lia. }
      assert (T : bnd (fun r => fadd (fadd (E 0 a r) (E a ((a + a) mod n) r)) (E ((a + a) mod n) 0 r))).
      { apply triangle; auto using mod_lt; try lia.
        - eapply down; [|exact Ht]. pose proof (@circ_step n 0 a ltac:(lia) ltac:(lia)) as H. rewrite Nat.add_0_l, Nat.mod_small in H by auto. exact H.
        - eapply down; [|exact Ht]. apply circ_step; auto. lia.
        - eapply down; [|exact Ht]. pose proof (@circ_step n ((a + a) mod n) b (mod_lt _) ltac:(lia)) as H. rewrite Nat.add_mod_idemp_l in H by lia. replace (a + a + b) with n in H by lia. rewrite Nat.mod_same in H by lia. lia. }
      eapply bnd_eq; [|apply (bnd_add T (bnd_scale (fopp f1) (bnd_add (bnd_add A1 A2) A3)))]. intros r. cbv beta.
      assert (Eg : gamma r = fadd (fadd (Sarc 0 a r) (Sarc a a r)) (Sarc ((a + a) mod n) b r)).
      { unfold gamma. rewrite <- S_steps by lia. replace n with (a + a + b) at 1 by lia. rewrite S_add by lia. rewrite S_add by lia. rewrite !Nat.add_0_l. now rewrite (Nat.mod_small a) by auto. }
      rewrite Eg. ring.
  Qed.
  (** ** before that it does not: the winding number *)
  Definition long : list N_ord :=
    nodup N.eq_dec (map (fun p => code n [fst p; snd p]) (filter (fun p => (fst p <? snd p) && (n <? 2 * (snd p - fst p))) (list_prod (seq 0 n) (seq 0 n)))).
  Definition winding (x : vec K N_ord) : option K := lincomb long x (fun _ (_ : unit_ord) => f1) tt.
  Lemma long_in i j : i < j -> j < n -> (In (code n [i; j] : N_ord) long <-> n < 2 * (j - i)).
  Proof.
    intros Hi Hj. unfold long. rewrite nodup_In, in_map_iff. split.
    - intros ([a b] & Ec & Hf). apply filter_In in Hf. cbn [fst snd] in *. destruct Hf as [Hp Hf]. apply in_prod_iff in Hp. rewrite !in_seq in Hp. apply andb_prop in Hf. destruct Hf as [_ Hf]. apply Nat.ltb_lt in Hf.
      apply code2_inj in Ec; try lia.
    - intros Hlt. exists (i, j). split; auto. apply filter_In. cbn [fst snd]. split; [apply in_prod_iff; rewrite !in_seq; lia|]. apply andb_true_intro. split; now apply Nat.ltb_lt.
  Qed.
  Lemma winding_e2 i j : i < j -> j < n -> winding (e2 i j) = if n <? 2 * (j - i) then f1 else f0.
  Proof.
    intros Hi Hj. unfold winding. destruct (Nat.ltb_spec n (2 * (j - i))) as [Hlt|Hge].
    - apply (lincomb_unit (C:=N_ord) (R:=unit_ord) (fun _ _ => f1) (code n [i; j] : N_ord) tt); [apply NoDup_nodup|now apply long_in].
    - apply lincomb_0. intros c Hc. left. unfold e2. destruct (oeqb_spec (code n [i; j] : N_ord) c) as [<-|]; auto. apply long_in in Hc; auto. lia.
  Qed.
  Lemma winding_ext x y : (forall r, x r = y r) -> winding x = winding y.
  Proof. intros H. apply lincomb_ext; auto. Qed.
  Lemma winding_add x y : winding (fun r => fadd (x r) (y r)) = fadd (winding x) (winding y).
  Proof. apply lincomb_add. Qed.
  Lemma winding_scale c x : winding (fun r => fmul c (x r)) = fmul c (winding x).
  Proof. apply lincomb_scale. Qed.
  Lemma winding_comb {B : ordT} (bs : list B) (x : vec K B) M : winding (lincomb bs x M) = vsum bs (fun b => fmul (x b) (winding (M b))).
  Proof. unfold winding. symmetry. apply (lincomb_assoc bs long x M (fun _ (_ : unit_ord) => f1) tt). Qed.
  Lemma winding_bnd x : ~ ole (iota third) t -> bnd x -> winding x = f0.
  Proof.
    intros Hn3 (w & Hw & Ew). transitivity (winding (lincomb l w D)); [apply winding_ext; intros; symmetry; apply Ew|]. rewrite winding_comb. apply vsum_0. intros c Hc.
    destruct (fscalar_dec (w c)) as [E0|Hne]; [rewrite E0; ring|]. destruct (Hw c Hne) as (_ & Hg & Ht). apply l_in' in Hc. destruct Hc as (s0 & Hs0 & _ & ->). rewrite Hdim in Hg by auto.
    destruct s0 as [|i [|j [|m [|]]]]; cbn [length] in Hg; try lia. pose proof (Hphi' Hs0) as [_ Hdm].
    destruct Hs0 as (_ & Hso & Hb). inversion Hso as [|? ? Hso' Hlt]; subst. inversion Hlt as [|? ? Hij Hlt']; subst. inversion Hso' as [|? ? _ Hlt2]; subst. inversion Hlt2 as [|? ? Hjm _]; subst.
    inversion Hb as [|? ? Hi Hb']; subst. inversion Hb' as [|? ? Hj Hb'']; subst. inversion Hb'' as [|? ? Hm _]; subst. clear Hso Hb Hlt Hso' Hb' Hlt' Hlt2 Hb''.
    assert (Hc : forall a b, In a [i; j; m] -> In b [i; j; m] -> circ n a b < third).
    { intros a b Ha Hb. destruct (lt_dec (circ n a b) third); auto. exfalso. apply Hn3. apply (@down third (circ n a b)); [|eapply ole_trans; [|exact Ht]].
      2:{ rewrite <- circle_dist; [apply Hdm; auto|cbn in Ha; destruct Ha as [<-|[<-|[<-|[]]]]; lia|cbn in Hb; destruct Hb as [<-|[<-|[<-|[]]]]; lia]. } lia. }
    pose proof (Hc i j ltac:(cbn; auto) ltac:(cbn; auto)) as C1. pose proof (Hc j m ltac:(cbn; auto) ltac:(cbn; auto)) as C2. pose proof (Hc i m ltac:(cbn; auto) ltac:(cbn; auto)) as C3. clear Hc Hdm.
    rewrite circ_lt in C1, C2, C3 by lia. destruct (Nat.ltb_spec i j); [|lia]. destruct (Nat.ltb_spec j m); [|lia]. destruct (Nat.ltb_spec i m); [|lia]. pose proof third_spec as H3.
    assert (Ew' : winding (D (code n [i; j; m])) = f0).
    { transitivity (winding (fun r => fadd (fadd (e2 j m r) (fmul (fopp f1) (e2 i m r))) (e2 i j r))); [apply winding_ext; intros r; rewrite D_tri by auto; ring|].
      rewrite !winding_add, winding_scale, !winding_e2 by lia.
      destruct (Nat.ltb_spec n (2 * (m - j))); destruct (Nat.ltb_spec n (2 * (m - i))); destruct (Nat.ltb_spec n (2 * (j - i))); try (exfalso; lia); ring. }
    rewrite Ew'. ring.
  Qed.
  Lemma winding_gamma : 3 <= n -> winding gamma = fopp f1.
  Proof.
    intros H3. unfold gamma. rewrite winding_comb. rewrite (vsum_single _ (a:=n - 1)); [|apply seq_NoDup|apply in_seq; lia|].
    - unfold U. replace (n - 1 + 1) with n by lia. rewrite Nat.mod_same by lia. transitivity (fmul f1 (winding (fun r => fmul (fopp f1) (e2 0 (n - 1) r)))).
      + f_equal. apply winding_ext. intros r. unfold E. destruct (Nat.ltb_spec (n - 1) 0); [lia|]. destruct (Nat.ltb_spec 0 (n - 1)); [ring|lia].
      + rewrite winding_scale, winding_e2 by lia. destruct (Nat.ltb_spec n (2 * (n - 1 - 0))); [ring|lia].
    - intros q Hq Hne. apply in_seq in Hq. assert (Hq' : q + 1 < n) by (cbn in Hne; lia). unfold U. rewrite Nat.mod_small by auto. transitivity (fmul (f1 : option K) (winding (e2 q (q + 1)))).
      + f_equal. apply winding_ext. intros r. unfold E. destruct (Nat.ltb_spec q (q + 1)); [reflexivity|lia].
      + rewrite winding_e2 by lia. destruct (Nat.ltb_spec n (2 * (q + 1 - q))); [lia|ring].
  Qed.
  End Time.
  (** ** the persistent Betti numbers of degree 1 *)
  Theorem circle_betti1 s t : ole s t ->
    persistent_betti phi dim (-1) l D 1 s t (if oleb (iota 1) s && oltb t (iota third) then 1 else 0).
  Proof.
    intros Hst. assert (Hup : forall u, cycle_at phi dim l D 1 s u -> cycle_at phi dim l D 1 t u).
    { intros u [H1 H2]. split; auto. intros c Hc. destruct (H1 c Hc) as (A & B & C). split; auto. split; auto. eapply ole_trans; eauto. }
    assert (Hone : (f1 : option K) <> f0) by apply (F_1_neq_0 (F_field K)).
    destruct (oleb_spec (iota 1) s) as [H1|H1]; cbn [andb]; [destruct (oltb_spec t (iota third)) as [H3|H3]|].
    - exists unit_ord, [tt : unit_ord], (fun _ => gamma). split; [|reflexivity]. split; [repeat constructor; auto|]. split; [|split].
      + intros b _. now apply gamma_cycle.
      + intros u Hu. destruct (cycle_gamma (Hup u Hu)) as (a & Ha). exists (fun _ => a). eapply bnd_eq; [|exact Ha]. intros r. cbv beta. unfold lincomb. cbn [vsum fold_right]. ring.
      + intros a Ha b _. destruct b. assert (Hn3 : ~ ole (iota third) t) by now apply olt_not_le.
        assert (H3n : 3 <= n).
        { destruct (le_lt_dec 3 n); auto. exfalso. apply Hn3. eapply ole_trans; [|exact Hst]. eapply ole_trans; [|exact H1]. apply iota_le. pose proof third_spec. lia. }
        apply (winding_bnd Hn3) in Ha. rewrite winding_comb in Ha. cbn [vsum fold_right] in Ha. rewrite winding_gamma in Ha by auto.
        revert Ha. generalize (a tt). intros x Ha. transitivity (fopp (fadd (fmul x (fopp f1)) f0)); [ring|]. rewrite Ha. ring.
    - exists unit_ord, [], (fun _ _ => f0). split; [|reflexivity]. split; [constructor|]. split; [intros b []|]. split; [|intros a _ b []].
      intros u Hu. exists (fun _ => f0). destruct (cycle_gamma (Hup u Hu)) as (a & Ha). assert (Hg : boundary_at phi dim (-1) l D 1 t gamma) by (apply gamma_bounds; apply ole_not_lt; exact H3).
      eapply bnd_eq; [|apply (bnd_add Ha (bnd_scale a Hg))]. intros r. cbv beta. unfold lincomb. cbn [vsum fold_right]. ring.
    - exists unit_ord, [], (fun _ _ => f0). split; [|reflexivity]. split; [constructor|]. split; [intros b []|]. split; [|intros a _ b []].
      intros u [Hu _]. exists (fun _ => f0). eapply bnd_eq; [|apply bnd_zero]. intros r. cbv beta. unfold lincomb. cbn [vsum fold_right].
      destruct (fscalar_dec (u r)) as [E0|Hne]; [rewrite E0; ring|]. exfalso. destruct (Hu r Hne) as (Hin & Hg & Ht). apply l_in' in Hin. destruct Hin as (s0 & Hs0 & _ & ->). rewrite Hdim in Hg by auto.
      destruct s0 as [|i [|j [|]]]; cbn [length] in Hg; try lia. destruct Hs0 as (_ & Hso & Hb). inversion Hso as [|? ? _ Hlt]; subst. inversion Hlt; subst. inversion Hb as [|? ? Hi Hb']; subst. inversion Hb'; subst.
      rewrite phi_edge' in Ht by auto. apply H1. eapply ole_trans; [|exact Ht]. apply iota_le. rewrite circ_lt by lia. destruct (Nat.ltb_spec i j); lia.
  Qed.
End Circle.
