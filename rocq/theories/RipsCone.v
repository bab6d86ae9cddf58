(** Lemmas for C100: a point within distance [t] of all others makes the complex at [t] a cone. *)
From Verif Require Import Base Fields FieldsFacts Spec LinAlg Matrices Rips SpecRips RipsCode RipsFacts RipsBasis RipsComplex PropRips RipsCohomology PropRipsCohomology SpecPH Persistence BettiUnique RipsPersistence PropRipsPersistence PropRipsCli BettiMaps BettiFactor RipsSwap PropRipsOrder RipsRepeat RipsCover.
From Coq Require Import Ring Field Permutation Sorted Lia.
Set Implicit Arguments.

(** ** Joining simplices with the last vertex [m] *)
Section Lists.
  Context {K : coeffT} (m : nat).
  Add Field KFrcone : (F_field K).
  Definition cl (t : list nat) : option (list nat) := if mem m t then None else Some (t ++ [m]).
  Definition cf (v x : list nat) : option K := match x with [] => f0 | _ => match cl x with Some y => fmul (sign K (length x)) (del v y) | None => f0 end end.
  Lemma cl_0 u : below m u -> cl u = Some (u ++ [m]).
  Proof. intros H. unfold cl. rewrite (proj2 (mem_false m u)); auto. now apply below_a. Qed.
  Lemma cl_a u : cl (u ++ [m]) = None.
  Proof. unfold cl. rewrite (proj2 (mem_iff m (u ++ [m]))); auto. rewrite in_app_iff. simpl. auto. Qed.
  Lemma last_split u : StronglySorted lt u -> Forall (fun v => v < S m) u -> exists u', below m u' /\ (u = u' \/ u = u' ++ [m]).
  Proof.
    induction u as [|x u IH]; intros Hs Hb; [exists []; split; [intros v []|auto]|].
    apply StronglySorted_inv in Hs. destruct Hs as [Hs Hx]. inversion Hb as [|? ? Hb1 Hb2]; subst.
    destruct (Nat.lt_ge_cases x m) as [Hlt|Hge].
    - destruct (IH Hs Hb2) as (u' & Hu & Hc). exists (x :: u'). split; [intros v [<-|Hv]; auto|]. destruct Hc as [->| ->]; auto.
    - rewrite Forall_forall in Hx, Hb2. exists []. split; [intros v []|]. cbn [app]. right. assert (x = m) by lia. subst x.
      destruct u as [|y u]; auto. exfalso. pose proof (Hx y (or_introl eq_refl)). pose proof (Hb2 y (or_introl eq_refl)). lia.
  Qed.
  Lemma cf_nonempty v x : x <> [] -> cf v x = match cl x with Some y => fmul (sign K (length x)) (del v y) | None => f0 end.
  Proof. now destruct x. Qed.
  Lemma cone_homotopy t v : StronglySorted lt t -> Forall (fun v => v < S m) t -> 2 <= length t ->
    del v t = fadd (match cl t with Some t' => fmul (sign K (length t)) (inc t' v) | None => f0 end) (bsum t (cf v)).
  Proof.
    intros Hs Hb Hlen. destruct (last_split Hs Hb) as (u & Hu & [->| ->]).
    - rewrite cl_0 by auto. rewrite inc_bsum, bsum_snoc.
      assert (Esq : fmul (sign K (length u)) (sign K (length u)) = f1) by (unfold sign; destruct (Nat.even (length u)); ring).
      assert (E1 : bsum u (cf v) = fopp (fmul (sign K (length u)) (bsum u (fun y => del v (y ++ [m]))))).
      { transitivity (fmul (fopp (sign K (length u))) (bsum u (fun y => del v (y ++ [m])))); [|ring]. rewrite <- bsum_mul. apply bsum_ext. intros i Hi.
        assert (El : S (length (rem i u)) = length u) by (pose proof (facet_length (proj2 (facet_rem u i (rem i u)) (conj Hi eq_refl))); lia).
        rewrite cf_nonempty by (intros E; rewrite E in El; simpl in El; lia). rewrite cl_0 by now apply below_rem. rewrite <- El, sign_S. ring. }
      rewrite E1. set (sg := sign K (length u)) in *. set (B := bsum u _). transitivity (fmul (fmul sg sg) (del v u)); [rewrite Esq; ring|ring].
    - rewrite cl_a. rewrite bsum_snoc, (@bsum_zero K u).
      + rewrite app_length in Hlen. cbn [length] in Hlen. rewrite cf_nonempty by (intros ->; simpl in Hlen; lia). rewrite cl_0 by auto.
        assert (Esq : fmul (sign K (length u)) (sign K (length u)) = f1) by (unfold sign; destruct (Nat.even (length u)); ring).
        set (sg := sign K (length u)) in *. transitivity (fmul (fmul sg sg) (del v (u ++ [m]))); [rewrite Esq; ring|ring].
      + intros i _. rewrite cf_nonempty by (now destruct (rem i u)). now rewrite cl_a.
  Qed.
End Lists.

Section Cone.
  Context {K : coeffT} {F : ordT} (z : F) (d : list (list F)) (m : nat).
  Hypothesis Hd : length d = S m.
  Variables (phi : N_ord -> F) (D : N_ord -> vec K N_ord) (dim : N_ord -> Z) (k : nat) (l : list N_ord) (t : F).
  Hypothesis Hphi : rips_filtration z d phi.
  Hypothesis HD : rips_boundary_matrix (S m) D.
  Hypothesis Hdim : simplex_dim (S m) dim.
  Hypothesis Hl : lists_simplices (S m) k l.
  Hypothesis Hk : S m <= k.
  (** the last point is within [t] of all points *)
  Hypothesis Hapex : forall x, x < S m -> ole (dist z d x m) t /\ ole (dist z d m x) t.
  Add Field KFrcone2 : (F_field K).
  Notation n := (S m).
  Definition Hc (c r : N_ord) : option K := match to_vec n c with Ok u => match cl m u with Some u' => fmul (sign K (length u)) (ind (code n u') r) | None => f0 end | _ => f0 end.
  Lemma Hc_code u r : simplex n u -> Hc (code n u) r = match cl m u with Some u' => fmul (sign K (length u)) (ind (code n u') r) | None => f0 end.
  Proof. intros H. unfold Hc. rewrite to_vec_code by apply H. reflexivity. Qed.
  Lemma cl_simplex u u' : simplex n u -> cl m u = Some u' -> simplex n u' /\ length u' = S (length u) /\ forall v, In v u' <-> In v u \/ v = m.
  Proof.
    intros (A & B & C) E. destruct (@last_split m u B C) as (w & Hw & [->| ->]); [|now rewrite cl_a in E]. rewrite cl_0 in E by auto. injection E as <-.
    split; [|split; [rewrite app_length; simpl; lia|intros v; rewrite in_app_iff; simpl; intuition]]. split; [now destruct w|]. split.
    - apply sorted_app. split; auto. split; [repeat constructor|]. intros x y Hx [<-|[]]. now apply Hw.
    - rewrite Forall_forall. intros v Hv. apply in_app_iff in Hv. destruct Hv as [Hv|[<-|[]]]; [specialize (Hw v Hv)|]; lia.
  Qed.
  Lemma phi_cl u u' : simplex n u -> cl m u = Some u' -> ole (phi (code n u)) t -> ole (phi (code n u')) t.
  Proof.
    intros Hu E Ht. destruct (cl_simplex Hu E) as (Hu' & _ & Hin). assert (A := Hphi). unfold rips_filtration in A. rewrite Hd in A. assert (B := A u' Hu'). specialize (A u Hu).
    destruct A as [_ Am]. destruct B as [(x & y & Hx & Hy & Eb) _]. rewrite <- Eb.
    pose proof (lt_simplex _ Hu' Hx) as Bx. pose proof (lt_simplex _ Hu' Hy) as By. apply Hin in Hx, Hy. destruct Hx as [Hx| ->]; [destruct Hy as [Hy| ->]|].
    - eapply ole_trans; [apply Am; auto|exact Ht].
    - now apply Hapex.
    - now apply Hapex.
  Qed.
  Lemma in_list c : In c l <-> exists t, simplex n t /\ c = code n t.
  Proof. split; [intros H; apply Hl in H; destruct H as (u & H1 & _ & H2); eauto|]. intros (u & H1 & H2). apply Hl. exists u. split; auto. split; auto. pose proof (simplex_length H1). lia. Qed.
  Lemma cone_identity u r : simplex n u -> 2 <= length u -> ind (code n u) r = fadd (lincomb l (Hc (code n u)) D r) (lincomb l (D (code n u)) Hc r).
  Proof.
    intros Hu Hlen.
    assert (E1 : lincomb l (Hc (code n u)) D r = match cl m u with Some u' => fmul (sign K (length u)) (D (code n u') r) | None => f0 end).
    { destruct (cl m u) as [u'|] eqn:E.
      - rewrite <- (@lincomb_unit K _ _ l D (code n u') r); [|apply Hl|apply in_list; exists u'; split; auto; apply (cl_simplex Hu E)].
        rewrite <- lincomb_scale. apply lincomb_ext; auto. intros x _. rewrite Hc_code, E by auto. reflexivity.
      - apply lincomb_0. intros x _. left. now rewrite Hc_code, E by auto. }
    rewrite E1. destruct (in_dec N.eq_dec r l) as [Hr|Hr].
    - apply in_list in Hr. destruct Hr as (v & Hv & ->). unfold lincomb.
      rewrite (@boundary_functional K n D k l HD Hl u (fun c => Hc c (code n v)) (cf m v) Hu).
      + rewrite ind_del by auto. rewrite (@cone_homotopy K m u v (proj1 (proj2 Hu)) (proj2 (proj2 Hu)) Hlen). f_equal.
        destruct (cl m u) as [u'|] eqn:Eh; auto. f_equal. symmetry. apply (sb_inc HD); auto. apply (cl_simplex Hu Eh).
      + pose proof (simplex_length Hu). lia.
      + reflexivity.
      + intros x Hx. rewrite Hc_code by auto. rewrite cf_nonempty by apply Hx. destruct (cl m x) as [x'|] eqn:Eh; auto. f_equal. symmetry. apply ind_del; auto. apply (cl_simplex Hx Eh).
    - assert (Hz : forall x, simplex n x -> ind (K:=K) (code n x) r = f0).
      { intros x Hx. destruct (fscalar_dec (ind (K:=K) (code n x) r)) as [|Hn]; auto. apply ind_in in Hn. subst r. exfalso. apply Hr, in_list; eauto. }
      rewrite (Hz u Hu).
      assert (E3 : lincomb l (D (code n u)) Hc r = f0).
      { apply lincomb_0. intros x Hx. right. apply in_list in Hx. destruct Hx as (x' & Hx & ->). rewrite Hc_code by auto. destruct (cl m x') as [y|] eqn:E; auto. rewrite Hz by apply (cl_simplex Hx E). ring. }
      assert (E4 : match cl m u with Some t' => fmul (sign K (length u)) (D (code n t') r) | None => f0 end = (f0 : option K)).
      { destruct (cl m u) as [t'|] eqn:E; auto. destruct (fscalar_dec (D (code n t') r)) as [->|Hn]; [ring|]. exfalso.
        destruct HD as [_ HD']. apply HD' in Hn; [|apply (cl_simplex Hu E)]. destruct Hn as (s & i & Hs & _ & ->). apply Hr, in_list; eauto. }
      rewrite E3, E4. ring.
  Qed.
  Lemma cone_boundary q s w : (1 <= q)%Z -> ole s t -> cycle_at phi dim l D q s w -> boundary_at phi dim (-1) l D q t w.
  Proof.
    intros Hq Hst [Hw Hcyc]. exists (lincomb l w Hc). split.
    - intros r Hr. apply lincomb_nonzero2 in Hr. destruct Hr as (c & Hin & Hwc & Hn). destruct (Hw c Hwc) as (_ & Hg & Hle). apply in_list in Hin. destruct Hin as (u & Hu & ->).
      rewrite Hc_code in Hn by auto. destruct (cl m u) as [u'|] eqn:E; [|congruence]. destruct (cl_simplex Hu E) as (Hu' & Hlen & _).
      assert (Hn' : ind (K:=K) (code n u') r <> f0) by (intros Ex; apply Hn; rewrite Ex; ring). apply ind_in in Hn'. subst r.
      split; [apply in_list; eauto|]. split; [rewrite Hdim in Hg |- * by auto; lia|]. apply (phi_cl Hu E). eapply ole_trans; eauto.
    - intros r. unfold bdry. rewrite <- lincomb_assoc.
      assert (E : lincomb l w (fun c => lincomb l (Hc c) D) r = lincomb l w (fun c r => fsub (ind c r) (lincomb l (D c) Hc r)) r).
      { unfold lincomb. apply vsum_ext. intros c Hin. destruct (fscalar_dec (w c)) as [->|Hwc]; [ring|]. destruct (Hw c Hwc) as (_ & Hg & _). apply in_list in Hin. destruct Hin as (u & Hu & ->).
        rewrite Hdim in Hg by auto. f_equal. pose proof (@cone_identity u r Hu ltac:(lia)) as Ei. unfold lincomb in Ei. rewrite Ei. ring. }
      rewrite E. transitivity (fsub (lincomb l w (fun c => ind c) r) (lincomb l w (fun c => lincomb l (D c) Hc) r)).
      { apply (@lincomb_sub_r K). }
      rewrite lincomb_assoc. rewrite (@lincomb_0 K _ _ l (lincomb l w D) Hc r) by (intros c _; left; apply Hcyc).
      transitivity (lincomb l w (fun c => ind c) r); [ring|]. unfold ind. apply (@chain_unit K F N_ord phi dim l) with (k := q) (u := s); auto. apply Hl.
  Qed.
  Lemma cone_betti q s b : (1 <= q)%Z -> ole s t -> persistent_betti phi dim (-1) l D q s t b -> b = 0.
  Proof.
    intros Hq Hst (I & bars & Z & (N1 & C1 & _ & L1) & <-). destruct bars as [|x bars]; auto. exfalso.
    apply (@f1_neq0 K). rewrite <- (L1 (fun y => if oeqb x y then f1 else f0)) with (b := x); [now rewrite oeqb_refl| |now left].
    destruct (cone_boundary Hq Hst (C1 x (or_introl eq_refl))) as (w & H1 & H2). exists w. split; auto. intros r. rewrite H2. symmetry.
    apply (@lincomb_unit K I N_ord (x :: bars) Z x r); auto. now left.
  Qed.
End Cone.

(** ** Any point within [r] of all others *)
Section Apex.
  Context {F : ordT} (z : F) (K : coeffT) (d : list (list F)).
  Hypothesis Hd : distance_matrix z d.
  Theorem apex_betti x q s t b : x < length d -> (forall y, y < length d -> ole (dist z d x y) t) -> (1 <= q)%Z -> ole s t -> rips_betti z K d q s t b -> b = 0.
  Proof.
    intros Hx Hr Hq Hst Hb. set (p := filter (fun y => negb (y =? x)) (seq 0 (length d)) ++ [x]).
    assert (Hp : forall a, In a p <-> a < length d).
    { intros a. unfold p. rewrite in_app_iff, filter_In, in_seq, negb_true_iff, Nat.eqb_neq. simpl. split; [intros [H|[<-|[]]]; lia|]. intros Ha. destruct (Nat.eq_dec a x) as [->|]; auto. left. lia. }
    apply (@cover_betti F z K d Hd p q s t b Hst Hp) in Hb. destruct Hb as (phi & D & dim & l & (A1 & A2 & A3 & k & A4 & A5) & A6).
    set (m := length (filter (fun y => negb (y =? x)) (seq 0 (length d)))). assert (Lp : length p = S m) by (unfold p; rewrite app_length; simpl; fold m; lia).
    rewrite reorder_length, Lp in A2, A3, A4, A5.
    apply (@cone_betti K F z (reorder z d p) m) with (phi := phi) (D := D) (dim := dim) (k := k) (l := l) (t := t) (q := q) (s := s); auto; [now rewrite reorder_length|].
    assert (Em : nth m p 0 = x) by (unfold p, m; rewrite app_nth2, Nat.sub_diag; auto).
    intros y Hy. rewrite !reorder_dist by lia. rewrite Em. assert (Hby : nth y p 0 < length d) by (apply Hp, nth_In; lia).
    split; [|auto]. destruct Hd as (_ & Hsym & _). rewrite Hsym by auto. auto.
  Qed.
End Apex.
