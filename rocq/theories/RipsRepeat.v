(** Lemmas for C87: a repeated point does not change the persistent Betti numbers of the Rips complex. *)
From Verif Require Import Base Fields FieldsFacts Spec LinAlg Matrices Rips SpecRips RipsCode RipsFacts RipsBasis RipsComplex PropRips RipsCohomology PropRipsCohomology SpecPH Persistence BettiUnique RipsPersistence PropRipsPersistence BettiMaps BettiFactor RipsSwap.
From Coq Require Import Ring Field Permutation Sorted Lia.
Set Implicit Arguments.

(** ** The last two vertices [m] and [m + 1] *)
Section Lists.
  Context {K : coeffT} (m : nat).
  Add Field KFrr : (F_field K).
  Notation a := m.
  Notation b := (S m).
  (** replace [m + 1] by [m]; a simplex with both is degenerate *)
  Definition pl (t : list nat) : option (list nat) := if mem b t then (if mem a t then None else Some (removelast t ++ [a])) else Some t.
  (** the prism over a simplex *)
  Definition hl (t : list nat) : option (list nat) := if mem b t then (if mem a t then None else Some (removelast t ++ [a; b])) else None.
  Definition below (u : list nat) : Prop := forall v, In v u -> v < m.
  Lemma mem_false v s : mem v s = false <-> ~ In v s.
  Proof. rewrite <- mem_iff. destruct (mem v s); intuition congruence. Qed.
  Lemma below_a u : below u -> ~ In a u.
  Proof. intros H Hi. specialize (H _ Hi). lia. Qed.
  Lemma below_b u : below u -> ~ In b u.
  Proof. intros H Hi. specialize (H _ Hi). lia. Qed.
  Lemma pl_0 u : ~ In b u -> pl u = Some u.
  Proof. intros H. unfold pl. apply mem_false in H. now rewrite H. Qed.
  Lemma pl_a u : below u -> pl (u ++ [a]) = Some (u ++ [a]).
  Proof. intros H. apply pl_0. rewrite in_app_iff. intros [Hi|[Hi|[]]]; [now apply below_b in Hi|lia]. Qed.
  Lemma tst_b u : below u -> mem b (u ++ [b]) = true /\ mem a (u ++ [b]) = false.
  Proof. intros H. rewrite mem_iff, mem_false, !in_app_iff. split; [simpl; auto|]. intros [Hi|[Hi|[]]]; [now apply below_a in Hi|lia]. Qed.
  Lemma tst_ab u : mem b (u ++ [a; b]) = true /\ mem a (u ++ [a; b]) = true.
  Proof. rewrite !mem_iff, !in_app_iff. simpl. auto. Qed.
  Lemma pl_b u : below u -> pl (u ++ [b]) = Some (u ++ [a]).
  Proof. intros H. unfold pl. destruct (tst_b H) as [-> ->]. now rewrite removelast_last. Qed.
  Lemma pl_ab u : pl (u ++ [a; b]) = None.
  Proof. unfold pl. destruct (tst_ab u) as [-> ->]. reflexivity. Qed.
  Lemma hl_0 u : ~ In b u -> hl u = None.
  Proof. intros H. unfold hl. apply mem_false in H. now rewrite H. Qed.
  Lemma hl_a u : below u -> hl (u ++ [a]) = None.
  Proof. intros H. apply hl_0. rewrite in_app_iff. intros [Hi|[Hi|[]]]; [now apply below_b in Hi|lia]. Qed.
  Lemma hl_b u : below u -> hl (u ++ [b]) = Some (u ++ [a; b]).
  Proof. intros H. unfold hl. destruct (tst_b H) as [-> ->]. now rewrite removelast_last. Qed.
  Lemma hl_ab u : hl (u ++ [a; b]) = None.
  Proof. unfold hl. destruct (tst_ab u) as [-> ->]. reflexivity. Qed.

  Lemma below_rem u i : below u -> below (rem i u).
  Proof.
    intros H v Hv. apply H. clear H. revert i Hv. induction u as [|x u IH]; intros i Hv; destruct i; cbn [rem] in Hv; simpl in *; auto. destruct Hv as [|Hv]; eauto.
  Qed.
  Lemma below_split u : StronglySorted lt u -> Forall (fun v => v < S (S m)) u ->
    exists u', below u' /\ (u = u' \/ u = u' ++ [a] \/ u = u' ++ [b] \/ u = u' ++ [a; b]).
  Proof.
    induction u as [|x u IH]; intros Hs Hb; [exists []; split; [intros v []|auto]|].
    apply StronglySorted_inv in Hs. destruct Hs as [Hs Hx]. inversion Hb as [|? ? Hb1 Hb2]; subst.
    destruct (Nat.lt_ge_cases x m) as [Hlt|Hge].
    - destruct (IH Hs Hb2) as (u' & Hu & Hc). exists (x :: u'). split; [intros v [<-|Hv]; auto|]. destruct Hc as [->|[->|[->| ->]]]; auto.
    - rewrite Forall_forall in Hx, Hb2. exists []. split; [intros v []|]. cbn [app]. destruct (Nat.eq_dec x m) as [->|Hne].
      + destruct u as [|y u]; [auto|]. assert (y = b) by (pose proof (Hx y (or_introl eq_refl)); pose proof (Hb2 y (or_introl eq_refl)); lia). subst y.
        destruct u as [|y u]; [auto|]. exfalso. apply StronglySorted_inv in Hs. destruct Hs as [_ Hs]. rewrite Forall_forall in Hs.
        pose proof (Hs y (or_introl eq_refl)). pose proof (Hb2 y (or_intror (or_introl eq_refl))). lia.
      + assert (x = b) by lia. subst x. destruct u as [|y u]; [auto|]. exfalso. pose proof (Hx y (or_introl eq_refl)). pose proof (Hb2 y (or_introl eq_refl)). lia.
  Qed.

  Lemma bsum_snoc u x (f : list nat -> option K) : bsum (u ++ [x]) f = fadd (bsum u (fun y => f (y ++ [x]))) (fmul (sign K (length u)) (f u)).
  Proof.
    revert f. induction u as [|v u IH]; intros f; cbn [app bsum length].
    - change (sign K 0) with (@f1 K). ring.
    - rewrite IH, sign_S. ring.
  Qed.
  Definition del (v x : list nat) : option K := if list_eq_dec Nat.eq_dec x v then f1 else f0.
  Definition pf (v x : list nat) : option K := match pl x with Some y => del v y | None => f0 end.
  Definition hf (v x : list nat) : option K := match hl x with Some y => fmul (sign K (length x)) (del v y) | None => f0 end.
  Lemma inc_bsum t v : inc t v = bsum t (del v).
  Proof. reflexivity. Qed.
  Lemma bsum_zero t (f : list nat -> option K) : (forall i, i < length t -> f (rem i t) = f0) -> bsum t f = f0.
  Proof. intros H. rewrite bsum_seq. apply vsum_0. intros i Hi. apply in_seq in Hi. rewrite H by lia. ring. Qed.
  Lemma bsum_mul t c (f : list nat -> option K) : bsum t (fun x => fmul c (f x)) = fmul c (bsum t f).
  Proof. revert f. induction t as [|v t IH]; intros f; cbn [bsum]; [ring|]. rewrite IH. ring. Qed.

  Lemma pl_chain t v : StronglySorted lt t -> Forall (fun v => v < S (S m)) t ->
    match pl t with Some t' => inc t' v | None => f0 end = bsum t (pf v).
  Proof.
    intros Hs Hb. destruct (below_split Hs Hb) as (u & Hu & [->|[->|[->| ->]]]).
    - rewrite pl_0 by now apply below_b. rewrite inc_bsum. apply bsum_ext. intros i _. unfold pf. rewrite pl_0; auto. apply below_b, below_rem; auto.
    - rewrite pl_a by auto. rewrite inc_bsum, !bsum_snoc. f_equal.
      + apply bsum_ext. intros i _. unfold pf. rewrite pl_a; auto. now apply below_rem.
      + unfold pf. rewrite pl_0; auto. now apply below_b.
    - rewrite pl_b by auto. rewrite inc_bsum, !bsum_snoc. f_equal.
      + apply bsum_ext. intros i _. unfold pf. rewrite pl_b; auto. now apply below_rem.
      + unfold pf. rewrite pl_0; auto. now apply below_b.
    - rewrite pl_ab. change [a; b] with ([a] ++ [b]). rewrite app_assoc, !bsum_snoc. rewrite (@bsum_zero u).
      + rewrite app_length, Nat.add_1_r, sign_S. unfold pf. rewrite pl_b, pl_a by auto. ring.
      + intros i _. unfold pf. rewrite <- app_assoc. change ([a] ++ [b]) with [a; b]. now rewrite pl_ab.
  Qed.
  Lemma hl_homotopy t v : StronglySorted lt t -> Forall (fun v => v < S (S m)) t ->
    fsub (pf v t) (del v t) = fadd (match hl t with Some t' => fmul (sign K (length t)) (inc t' v) | None => f0 end) (bsum t (hf v)).
  Proof.
    intros Hs Hb. destruct (below_split Hs Hb) as (u & Hu & [->|[->|[->| ->]]]); unfold pf.
    - rewrite pl_0, hl_0 by now apply below_b. rewrite (@bsum_zero u); [ring|]. intros i _. unfold hf. rewrite hl_0; auto. apply below_b, below_rem; auto.
    - rewrite pl_a, hl_a by auto. rewrite bsum_snoc, (@bsum_zero u).
      + unfold hf. rewrite hl_0 by now apply below_b. ring.
      + intros i _. unfold hf. rewrite hl_a; auto. now apply below_rem.
    - rewrite pl_b, hl_b by auto. rewrite inc_bsum. change [a; b] with ([a] ++ [b]). rewrite app_assoc, !bsum_snoc.
      rewrite !app_length. cbn [length]. rewrite Nat.add_1_r, sign_S.
      assert (E1 : bsum u (fun y => hf v (y ++ [b])) = fmul (sign K (length u)) (bsum u (fun y => del v ((y ++ [a]) ++ [b])))).
      { rewrite <- bsum_mul. apply bsum_ext. intros i Hi. unfold hf. rewrite hl_b by now apply below_rem. rewrite app_length. cbn [length].
        assert (El : length (rem i u) + 1 = length u) by (pose proof (facet_length (proj2 (facet_rem u i (rem i u)) (conj Hi eq_refl))); lia). rewrite El, <- app_assoc. reflexivity. }
      rewrite E1. assert (E2 : hf v u = f0) by (unfold hf; rewrite hl_0; [auto|now apply below_b]). rewrite E2.
      assert (Esq : fmul (sign K (length u)) (sign K (length u)) = f1) by (unfold sign; destruct (Nat.even (length u)); ring).
      set (sg := sign K (length u)) in *. set (B := bsum u _).
      transitivity (fadd (fmul (fmul sg sg) (fsub (del v (u ++ [a])) (del v (u ++ [b])))) (f0 : option K)); [rewrite Esq; ring|]. ring.
    - rewrite pl_ab, hl_ab. change [a; b] with ([a] ++ [b]). rewrite app_assoc, !bsum_snoc. rewrite (@bsum_zero u).
      + rewrite !app_length. cbn [length]. rewrite Nat.add_1_r, sign_S. unfold hf. rewrite hl_b, hl_a by auto. rewrite app_length. cbn [length]. rewrite Nat.add_1_r, sign_S.
        assert (Esq : fmul (sign K (length u)) (sign K (length u)) = f1) by (unfold sign; destruct (Nat.even (length u)); ring).
        rewrite <- app_assoc. cbn [app]. set (sg := sign K (length u)) in *. transitivity (fopp (fmul (fmul sg sg) (del v (u ++ [a; b])))); [rewrite Esq; ring|ring].
      + intros i _. unfold hf. rewrite <- app_assoc. change ([a] ++ [b]) with [a; b]. now rewrite hl_ab.
  Qed.
End Lists.

(** A functional applied to a boundary *)
Section Functional.
  Context {K : coeffT} (n : nat) (D : N_ord -> vec K N_ord) (k : nat) (l : list N_ord).
  Hypothesis HD : rips_boundary_matrix n D.
  Hypothesis Hl : lists_simplices n k l.
  Add Field KFrr2 : (F_field K).
  Lemma boundary_functional t (f : N_ord -> option K) (h : list nat -> option K) : simplex n t -> length t <= k -> h [] = f0 ->
    (forall x, simplex n x -> h x = f (code n x)) -> vsum l (fun c => fmul (D (code n t) c) (f c)) = bsum t h.
  Proof.
    intros Ht Hk Hh0 Hh. destruct Hl as [Hnd Hin].
    set (dec := fun c => match to_vec n c with Ok s => s | _ => [] end).
    assert (Hdec : forall s, simplex n s -> dec (code n s) = s) by (intros x Hx; unfold dec; rewrite to_vec_code by apply Hx; reflexivity).
    assert (El : map (code n) (map dec l) = l).
    { rewrite map_map. rewrite <- (map_id l) at 2. apply map_ext_in. intros c Hc. apply Hin in Hc. destruct Hc as (x & Hx & _ & ->). now rewrite Hdec. }
    assert (Hx : forall x, In x (map dec l) <-> simplex n x /\ length x <= k).
    { intros x. rewrite in_map_iff. split.
      - intros (c & E & Hc). apply Hin in Hc. destruct Hc as (y & Hy & Hly & ->). rewrite Hdec in E by auto. now subst y.
      - intros [Hx Hlx]. exists (code n x). split; [auto|]. apply Hin. eauto. }
    transitivity (vsum (map (code n) (map dec l)) (fun c => fmul (D (code n t) c) (f c))); [now rewrite El|]. rewrite vsum_map.
    transitivity (vsum ([] :: map dec l) (fun s => fmul (h s) (inc t s))).
    - cbn [vsum]. rewrite Hh0. transitivity (vsum (map dec l) (fun s => fmul (h s) (inc t s))); [|ring]. apply vsum_ext. intros x Hi. apply Hx in Hi. destruct Hi as [Hi _].
      rewrite (sb_inc HD) by auto. rewrite Hh by auto. ring.
    - apply vsum_inc.
      + constructor; [intros Hi; apply Hx in Hi; destruct Hi as [[Hi _] _]; congruence|]. apply (NoDup_map_inv (code n)). now rewrite El.
      + intros i s Hf. destruct s as [|v s]; [now left|]. right. apply Hx. split; [eapply facet_simplex; eauto; discriminate|]. apply facet_length in Hf. lia.
  Qed.
End Functional.

Section Codes.
  Context {K : coeffT} {F : ordT} (z : F) (d d2 : list (list F)) (m : nat).
  Hypothesis Hd : length d = S m.
  Hypothesis Hd2 : length d2 = S (S m).
  Hypothesis Hdd : forall x y, x < S (S m) -> y < S (S m) -> dist z d2 x y = dist z d (Nat.min x m) (Nat.min y m).
  Variables (phi phi2 : N_ord -> F) (D D2 : N_ord -> vec K N_ord) (dim dim2 : N_ord -> Z) (k k2 : nat) (l l2 : list N_ord).
  Hypothesis Hphi : rips_filtration z d phi.
  Hypothesis Hphi2 : rips_filtration z d2 phi2.
  Hypothesis HD : rips_boundary_matrix (S m) D.
  Hypothesis HD2 : rips_boundary_matrix (S (S m)) D2.
  Hypothesis Hdim : simplex_dim (S m) dim.
  Hypothesis Hdim2 : simplex_dim (S (S m)) dim2.
  Hypothesis Hl : lists_simplices (S m) k l.
  Hypothesis Hl2 : lists_simplices (S (S m)) k2 l2.
  Hypothesis Hk : S m <= k.
  Hypothesis Hk2 : S (S m) <= k2.
  Add Field KFrr3 : (F_field K).
  Notation n1 := (S m).
  Notation n2 := (S (S m)).
  Definition ind (j r : N_ord) : option K := if oeqb j r then f1 else f0.
  Definition Mp (c r : N_ord) : option K := match to_vec n2 c with Ok t => match pl m t with Some t' => ind (code n1 t') r | None => f0 end | _ => f0 end.
  Definition Gi (c r : N_ord) : option K := match to_vec n1 c with Ok t => ind (code n2 t) r | _ => f0 end.
  Definition Hh (c r : N_ord) : option K := match to_vec n2 c with Ok t => match hl m t with Some t' => fmul (sign K (length t)) (ind (code n2 t') r) | None => f0 end | _ => f0 end.

  Lemma up_simplex t : simplex n1 t -> simplex n2 t.
  Proof. intros (A & B & C). split; auto. split; auto. rewrite Forall_forall in *. intros v Hv. specialize (C v Hv). lia. Qed.
  Lemma below_simplex t : simplex n2 t -> ~ In (S m) t -> simplex n1 t.
  Proof. intros (A & B & C) Hn. split; auto. split; auto. rewrite Forall_forall in *. intros v Hv. specialize (C v Hv). assert (v <> S m) by congruence. lia. Qed.
  Lemma pl_simplex t t' : simplex n2 t -> pl m t = Some t' -> simplex n1 t' /\ length t' = length t /\ forall v, In v t' <-> exists w, In w t /\ v = Nat.min w m.
  Proof.
    intros (A & B & C) E. destruct (@below_split m t B C) as (u & Hu & [->|[->|[->| ->]]]).
    - rewrite pl_0 in E by now apply below_b. injection E as <-. split; [apply below_simplex; [repeat split; auto|now apply below_b]|]. split; auto. intros v. split.
      + intros Hv. exists v. split; auto. specialize (Hu v Hv). lia.
      + intros (w & Hw & ->). specialize (Hu w Hw). now rewrite Nat.min_l by lia.
    - rewrite pl_a in E by auto. injection E as <-. split; [apply below_simplex; [repeat split; auto|]; rewrite in_app_iff; intros [Hv|[Hv|[]]]; [now apply below_b in Hv|lia]|]. split; auto. intros v. split.
      + intros Hv. exists v. split; auto. apply in_app_iff in Hv. destruct Hv as [Hv|[<-|[]]]; [specialize (Hu v Hv)|]; lia.
      + intros (w & Hw & ->). rewrite Nat.min_l; auto. apply in_app_iff in Hw. destruct Hw as [Hv|[<-|[]]]; [specialize (Hu w Hv)|]; lia.
    - rewrite pl_b in E by auto. injection E as <-. split; [|split; [rewrite !app_length; auto|]].
      + split; [now destruct u|]. apply sorted_app in B. destruct B as (B1 & _ & _). split.
        * apply sorted_app. split; auto. split; [repeat constructor|]. intros x y Hx [<-|[]]. now apply Hu.
        * rewrite Forall_forall. intros v Hv. apply in_app_iff in Hv. destruct Hv as [Hv|[<-|[]]]; [specialize (Hu v Hv)|]; lia.
      + intros v. rewrite in_app_iff. split.
        * intros [Hv|[<-|[]]]; [exists v; rewrite in_app_iff; split; auto; specialize (Hu v Hv); lia|]. exists (S m). rewrite in_app_iff. split; [right; now left|lia].
        * intros (w & Hw & ->). apply in_app_iff in Hw. destruct Hw as [Hw|[<-|[]]]; [left; pose proof (Hu w Hw); now rewrite Nat.min_l by lia|]. right. left. lia.
    - now rewrite pl_ab in E.
  Qed.
  Lemma hl_simplex t t' : simplex n2 t -> hl m t = Some t' -> simplex n2 t' /\ length t' = S (length t) /\ forall v, In v t' <-> In v t \/ v = m.
  Proof.
    intros (A & B & C) E. destruct (@below_split m t B C) as (u & Hu & [->|[->|[->| ->]]]).
    - now rewrite hl_0 in E by now apply below_b.
    - now rewrite hl_a in E.
    - rewrite hl_b in E by auto. injection E as <-. split; [|split; [rewrite !app_length; simpl; lia|]].
      + split; [now destruct u|]. apply sorted_app in B. destruct B as (B1 & _ & _). split.
        * apply sorted_app. split; auto. split; [repeat constructor|]. intros x y Hx Hy. specialize (Hu x Hx). simpl in Hy. lia.
        * rewrite Forall_forall. intros v Hv. apply in_app_iff in Hv. destruct Hv as [Hv|Hv]; [specialize (Hu v Hv); lia|]. simpl in Hv. lia.
      + intros v. rewrite !in_app_iff. simpl. intuition.
    - now rewrite hl_ab in E.
  Qed.
  Lemma lt_simplex n t v : simplex n t -> In v t -> v < n.
  Proof. intros (_ & _ & H) Hv. exact (proj1 (Forall_forall _ _) H v Hv). Qed.
  Lemma phi_pl t t' : simplex n2 t -> pl m t = Some t' -> phi (code n1 t') = phi2 (code n2 t).
  Proof.
    intros Ht E. destruct (pl_simplex Ht E) as (Ht' & _ & Hin). assert (A := Hphi). assert (B := Hphi2). unfold rips_filtration in A, B. rewrite Hd in A. rewrite Hd2 in B. specialize (A t' Ht'). specialize (B t Ht).
    destruct A as [(x & y & Hx & Hy & Ea) Am]. destruct B as [(x' & y' & Hx' & Hy' & Eb) Bm]. apply ole_antisym.
    - rewrite <- Ea. apply Hin in Hx, Hy. destruct Hx as (w & Hw & ->). destruct Hy as (w' & Hw' & ->). rewrite <- Hdd by eauto using lt_simplex. auto.
    - rewrite <- Eb. rewrite Hdd by eauto using lt_simplex. apply Am; apply Hin; eauto.
  Qed.
  Lemma phi_up t : simplex n1 t -> phi2 (code n2 t) = phi (code n1 t).
  Proof.
    intros Ht. symmetry. apply phi_pl; [now apply up_simplex|]. apply pl_0. intros Hi. apply (lt_simplex _ Ht) in Hi. lia.
  Qed.
  Lemma phi_hl t t' : simplex n2 t -> hl m t = Some t' -> phi2 (code n2 t') = phi2 (code n2 t).
  Proof.
    intros Ht E. destruct (hl_simplex Ht E) as (Ht' & _ & Hin). 
    assert (Hb : In (S m) t). { unfold hl in E. destruct (mem (S m) t) eqn:Em; [|discriminate]. now apply mem_iff in Em. }
    assert (A := Hphi2). unfold rips_filtration in A. rewrite Hd2 in A. assert (B := A). specialize (A t' Ht'). specialize (B t Ht).
    destruct A as [(x & y & Hx & Hy & Ea) Am]. destruct B as [(x' & y' & Hx' & Hy' & Eb) Bm].
    assert (Hlm : forall v, In v t' -> exists w, In w t /\ Nat.min v m = Nat.min w m /\ v < n2 /\ w < n2).
    { intros v Hv. pose proof (lt_simplex _ Ht' Hv). apply Hin in Hv. destruct Hv as [Hv| ->]; [exists v; auto|]. exists (S m). split; auto. lia. }
    apply ole_antisym.
    - rewrite <- Ea. apply Hlm in Hx, Hy. destruct Hx as (w & Hw & Ew & Hx & Hwb). destruct Hy as (w' & Hw' & Ew' & Hy & Hwb'). rewrite Hdd, Ew, Ew', <- Hdd by auto. auto.
    - rewrite <- Eb. apply Am; apply Hin; auto.
  Qed.
  Lemma ind_del n t v : simplex n t -> simplex n v -> ind (code n t) (code n v) = del v t.
  Proof.
    intros Ht Hv. unfold ind, del. destruct (list_eq_dec Nat.eq_dec t v) as [->|Hne]; [now rewrite oeqb_refl|].
    assert (E : @oeqb N_ord (code n t) (code n v) = false); [|now rewrite E]. apply oeqb_neq. intros E. apply Hne. revert E. apply code_inj; [apply Ht|apply Hv].
  Qed.
  Lemma Mp_code t r : simplex n2 t -> Mp (code n2 t) r = match pl m t with Some t' => ind (code n1 t') r | None => f0 end.
  Proof. intros H. unfold Mp. rewrite to_vec_code by apply H. reflexivity. Qed.
  Lemma Gi_code t r : simplex n1 t -> Gi (code n1 t) r = ind (code n2 t) r.
  Proof. intros H. unfold Gi. rewrite to_vec_code by apply H. reflexivity. Qed.
  Lemma Hh_code t r : simplex n2 t -> Hh (code n2 t) r = match hl m t with Some t' => fmul (sign K (length t)) (ind (code n2 t') r) | None => f0 end.
  Proof. intros H. unfold Hh. rewrite to_vec_code by apply H. reflexivity. Qed.
  Lemma Mp_pf t v : simplex n2 t -> simplex n1 v -> Mp (code n2 t) (code n1 v) = pf m v t.
  Proof.
    intros Ht Hv. rewrite Mp_code by auto. unfold pf. destruct (pl m t) as [t'|] eqn:E; auto. apply ind_del; auto. now apply (pl_simplex Ht E).
  Qed.
  Lemma ind_in j r : ind j r <> f0 -> r = j.
  Proof. unfold ind. destruct (oeqb_spec j r); congruence. Qed.
  Lemma in_l c : In c l <-> exists t, simplex n1 t /\ c = code n1 t.
  Proof. split; [intros H; apply Hl in H; destruct H as (t & H1 & _ & H2); eauto|]. intros (t & H1 & H2). apply Hl. exists t. split; auto. split; auto. pose proof (simplex_length H1). lia. Qed.
  Lemma in_l2 c : In c l2 <-> exists t, simplex n2 t /\ c = code n2 t.
  Proof. split; [intros H; apply Hl2 in H; destruct H as (t & H1 & _ & H2); eauto|]. intros (t & H1 & H2). apply Hl2. exists t. split; auto. split; auto. pose proof (simplex_length H1). lia. Qed.

  Lemma chain_Mp c r : In c l2 -> lincomb l (Mp c) D r = lincomb l2 (D2 c) Mp r.
  Proof.
    intros Hc. apply in_l2 in Hc. destruct Hc as (t & Ht & ->).
    assert (E1 : lincomb l (Mp (code n2 t)) D r = match pl m t with Some t' => D (code n1 t') r | None => f0 end).
    { destruct (pl m t) as [t'|] eqn:E.
      - rewrite <- (@lincomb_unit K _ _ l D (code n1 t') r); [|apply Hl|apply in_l; exists t'; split; auto; apply (pl_simplex Ht E)].
        apply lincomb_ext; auto. intros x _. rewrite Mp_code, E by auto. reflexivity.
      - apply lincomb_0. intros x _. left. now rewrite Mp_code, E by auto. }
    rewrite E1. destruct (in_dec N.eq_dec r l) as [Hr|Hr].
    - apply in_l in Hr. destruct Hr as (v & Hv & ->). unfold lincomb.
      rewrite (@boundary_functional K n2 D2 k2 l2 HD2 Hl2 t (fun c => Mp c (code n1 v)) (pf m v) Ht).
      + rewrite <- pl_chain by apply Ht. destruct (pl m t) as [t'|] eqn:E; auto. apply (sb_inc HD); auto. apply (pl_simplex Ht E).
      + pose proof (simplex_length Ht). lia.
      + unfold pf. rewrite pl_0 by auto. unfold del. destruct (list_eq_dec Nat.eq_dec [] v) as [<-|]; auto. destruct Hv; congruence.
      + intros x Hx. symmetry. now apply Mp_pf.
    - assert (E2 : lincomb l2 (D2 (code n2 t)) Mp r = f0).
      { apply lincomb_0. intros x Hx. right. apply in_l2 in Hx. destruct Hx as (x' & Hx & ->). rewrite Mp_code by auto. destruct (pl m x') as [t'|] eqn:E; auto.
        destruct (fscalar_dec (ind (code n1 t') r)) as [|Hn]; auto. apply ind_in in Hn. subst r. exfalso. apply Hr, in_l. exists t'. split; auto. apply (pl_simplex Hx E). }
      rewrite E2. destruct (pl m t) as [t'|] eqn:E; auto. destruct (fscalar_dec (D (code n1 t') r)) as [|Hn]; auto. exfalso.
      destruct HD as [_ HD']. apply HD' in Hn; [|apply (pl_simplex Ht E)]. destruct Hn as (s & i & Hs & _ & ->). apply Hr, in_l; eauto.
  Qed.
  Lemma chain_Gi c r : In c l -> lincomb l2 (Gi c) D2 r = lincomb l (D c) Gi r.
  Proof.
    intros Hc. apply in_l in Hc. destruct Hc as (t & Ht & ->).
    assert (E1 : lincomb l2 (Gi (code n1 t)) D2 r = D2 (code n2 t) r).
    { rewrite <- (@lincomb_unit K _ _ l2 D2 (code n2 t) r); [|apply Hl2|apply in_l2; exists t; split; auto; now apply up_simplex].
      apply lincomb_ext; auto. intros x _. rewrite Gi_code by auto. reflexivity. }
    rewrite E1. destruct (in_dec N.eq_dec r l2) as [Hr|Hr].
    - apply in_l2 in Hr. destruct Hr as (v & Hv & ->). unfold lincomb.
      rewrite (@boundary_functional K n1 D k l HD Hl t (fun c => Gi c (code n2 v)) (del v) Ht).
      + rewrite (sb_inc HD2); auto. now apply up_simplex.
      + pose proof (simplex_length Ht). lia.
      + unfold del. destruct (list_eq_dec Nat.eq_dec [] v) as [<-|]; auto. destruct Hv; congruence.
      + intros x Hx. rewrite Gi_code by auto. symmetry. apply ind_del; auto. now apply up_simplex.
    - assert (E2 : lincomb l (D (code n1 t)) Gi r = f0).
      { apply lincomb_0. intros x Hx. right. apply in_l in Hx. destruct Hx as (x' & Hx & ->). rewrite Gi_code by auto.
        destruct (fscalar_dec (ind (code n2 x') r)) as [|Hn]; auto. apply ind_in in Hn. subst r. exfalso. apply Hr, in_l2. exists x'. split; auto. now apply up_simplex. }
      rewrite E2. destruct (fscalar_dec (D2 (code n2 t) r)) as [|Hn]; auto. exfalso.
      destruct HD2 as [_ HD']. apply HD' in Hn; [|now apply up_simplex]. destruct Hn as (s & i & Hs & _ & ->). apply Hr, in_l2; eauto.
  Qed.
  Lemma MG c r : In c l2 -> lincomb l (Mp c) Gi r = match to_vec n2 c with Ok t => match pl m t with Some t' => ind (code n2 t') r | None => f0 end | _ => f0 end.
  Proof.
    intros Hc. apply in_l2 in Hc. destruct Hc as (t & Ht & ->). rewrite to_vec_code by apply Ht. destruct (pl m t) as [t'|] eqn:E.
    - pose proof (proj1 (pl_simplex Ht E)) as Ht'. rewrite <- Gi_code by auto. rewrite <- (@lincomb_unit K _ _ l Gi (code n1 t') r); [|apply Hl|apply in_l; eauto].
      apply lincomb_ext; auto. intros x _. rewrite Mp_code, E by auto. reflexivity.
    - apply lincomb_0. intros x _. left. now rewrite Mp_code, E by auto.
  Qed.
  Lemma homotopy_MG c r : In c l2 -> fsub (lincomb l (Mp c) Gi r) (if oeqb c r then f1 else f0) = fadd (lincomb l2 (Hh c) D2 r) (lincomb l2 (D2 c) Hh r).
  Proof.
    intros Hc. rewrite MG by auto. apply in_l2 in Hc. destruct Hc as (t & Ht & ->). rewrite to_vec_code by apply Ht. fold (ind (code n2 t) r).
    assert (E1 : lincomb l2 (Hh (code n2 t)) D2 r = match hl m t with Some t' => fmul (sign K (length t)) (D2 (code n2 t') r) | None => f0 end).
    { destruct (hl m t) as [t'|] eqn:E.
      - rewrite <- (@lincomb_unit K _ _ l2 D2 (code n2 t') r); [|apply Hl2|apply in_l2; exists t'; split; auto; apply (hl_simplex Ht E)].
        rewrite <- lincomb_scale. apply lincomb_ext; auto. intros x _. rewrite Hh_code, E by auto. reflexivity.
      - apply lincomb_0. intros x _. left. now rewrite Hh_code, E by auto. }
    rewrite E1. destruct (in_dec N.eq_dec r l2) as [Hr|Hr].
    - apply in_l2 in Hr. destruct Hr as (v & Hv & ->). unfold lincomb.
      rewrite (@boundary_functional K n2 D2 k2 l2 HD2 Hl2 t (fun c => Hh c (code n2 v)) (hf m v) Ht).
      + pose proof (@hl_homotopy K m t v (proj1 (proj2 Ht)) (proj2 (proj2 Ht))) as E. rewrite ind_del by auto.
        transitivity (fsub (pf m v t) (del v t) : option K).
        * f_equal. unfold pf. destruct (pl m t) as [t'|] eqn:Ep; auto. apply ind_del; auto. apply up_simplex. apply (pl_simplex Ht Ep).
        * rewrite E. f_equal. destruct (hl m t) as [t'|] eqn:Eh; auto. f_equal. symmetry. apply (sb_inc HD2); auto. apply (hl_simplex Ht Eh).
      + pose proof (simplex_length Ht). lia.
      + unfold hf. now rewrite hl_0.
      + intros x Hx. rewrite Hh_code by auto. unfold hf. destruct (hl m x) as [x'|] eqn:Eh; auto. f_equal. symmetry. apply ind_del; auto. apply (hl_simplex Hx Eh).
    - assert (Hz : forall x, simplex n2 x -> ind (code n2 x) r = f0).
      { intros x Hx. destruct (fscalar_dec (ind (code n2 x) r)) as [|Hn]; auto. apply ind_in in Hn. subst r. exfalso. apply Hr, in_l2; eauto. }
      rewrite (Hz t Ht).
      assert (E2 : match pl m t with Some t' => ind (code n2 t') r | None => f0 end = (f0 : option K)).
      { destruct (pl m t) as [t'|] eqn:Ep; auto. apply Hz, up_simplex, (pl_simplex Ht Ep). }
      assert (E3 : lincomb l2 (D2 (code n2 t)) Hh r = f0).
      { apply lincomb_0. intros x Hx. right. apply in_l2 in Hx. destruct Hx as (x' & Hx & ->). rewrite Hh_code by auto. destruct (hl m x') as [y|] eqn:E; auto. rewrite Hz by apply (hl_simplex Hx E). ring. }
      assert (E4 : match hl m t with Some t' => fmul (sign K (length t)) (D2 (code n2 t') r) | None => f0 end = (f0 : option K)).
      { destruct (hl m t) as [t'|] eqn:E; auto. destruct (fscalar_dec (D2 (code n2 t') r)) as [->|Hn]; [ring|]. exfalso.
        destruct HD2 as [_ HD']. apply HD' in Hn; [|apply (hl_simplex Ht E)]. destruct Hn as (s & i & Hs & _ & ->). apply Hr, in_l2; eauto. }
      rewrite E2, E3, E4. ring.
  Qed.

  (** the complex with the repeated vertex and the one without have the same persistent Betti numbers *)
  Lemma repeat_le q s t b b2 : ole s t -> persistent_betti phi2 dim2 (-1) l2 D2 q s t b2 -> persistent_betti phi dim (-1) l D q s t b -> b2 <= b.
  Proof.
    intros Hst. apply (@factor_betti K F F N_ord N_ord phi2 dim2 l2 D2 phi dim l D (-1)%Z q s t s t Mp Gi Hh); auto.
    - apply Hl2.
    - intros c r Hc. now apply chain_Mp.
    - intros c r Hc. now apply chain_Gi.
    - intros c r Hc. now apply homotopy_MG.
    - intros c r Hc Hg Hle Hn. apply in_l2 in Hc. destruct Hc as (u & Hu & ->). rewrite Mp_code in Hn by auto. destruct (pl m u) as [u'|] eqn:E; [|congruence]. apply ind_in in Hn. subst r.
      destruct (pl_simplex Hu E) as (Hu' & Hlen & _). split; [apply in_l; eauto|]. rewrite Hdim, Hlen by auto. rewrite Hdim2 in Hg by auto. split; auto. now rewrite (phi_pl Hu E).
    - intros c r Hc Hg Hle Hn. apply in_l in Hc. destruct Hc as (u & Hu & ->). rewrite Gi_code in Hn by auto. apply ind_in in Hn. subst r.
      pose proof (up_simplex Hu) as Hu'. split; [apply in_l2; eauto|]. rewrite Hdim2 by auto. rewrite Hdim in Hg by auto. split; auto. now rewrite phi_up.
    - intros c r Hc Hg Hle Hn. apply in_l2 in Hc. destruct Hc as (u & Hu & ->). rewrite Hh_code in Hn by auto. destruct (hl m u) as [u'|] eqn:E; [|congruence].
      assert (Hn' : ind (code n2 u') r <> f0) by (intros Ex; apply Hn; rewrite Ex; ring). apply ind_in in Hn'. subst r.
      destruct (hl_simplex Hu E) as (Hu' & Hlen & _). split; [apply in_l2; eauto|]. rewrite Hdim2, Hlen by auto. rewrite Hdim2 in Hg by auto. split; [lia|]. rewrite (phi_hl Hu E). eapply ole_trans; eauto.
  Qed.
  Lemma repeat_ge q s t b b2 : ole s t -> persistent_betti phi dim (-1) l D q s t b -> persistent_betti phi2 dim2 (-1) l2 D2 q s t b2 -> b <= b2.
  Proof.
    intros Hst. apply (@factor_betti K F F N_ord N_ord phi dim l D phi2 dim2 l2 D2 (-1)%Z q s t s t Gi Mp (fun _ _ => f0)); auto.
    - apply Hl.
    - intros c r Hc. now apply chain_Gi.
    - intros c r Hc. now apply chain_Mp.
    - intros c r Hc. rewrite (@lincomb_0 K N_ord N_ord l (fun _ => f0) D r), (@lincomb_0 K N_ord N_ord l (D c) (fun _ _ => f0) r) by auto.
      apply in_l in Hc. destruct Hc as (u & Hu & ->). fold (ind (code n1 u) r). pose proof (up_simplex Hu) as Hu'.
      assert (E : lincomb l2 (Gi (code n1 u)) Mp r = Mp (code n2 u) r).
      { rewrite <- (@lincomb_unit K _ _ l2 Mp (code n2 u) r); [|apply Hl2|apply in_l2; eauto]. apply lincomb_ext; auto. intros x _. rewrite Gi_code by auto. reflexivity. }
      rewrite E, Mp_code by auto. rewrite pl_0; [ring|]. intros Hi. apply (lt_simplex _ Hu) in Hi. lia.
    - intros c r Hc Hg Hle Hn. apply in_l in Hc. destruct Hc as (u & Hu & ->). rewrite Gi_code in Hn by auto. apply ind_in in Hn. subst r.
      pose proof (up_simplex Hu) as Hu'. split; [apply in_l2; eauto|]. rewrite Hdim2 by auto. rewrite Hdim in Hg by auto. split; auto. now rewrite phi_up.
    - intros c r Hc Hg Hle Hn. apply in_l2 in Hc. destruct Hc as (u & Hu & ->). rewrite Mp_code in Hn by auto. destruct (pl m u) as [u'|] eqn:E; [|congruence]. apply ind_in in Hn. subst r.
      destruct (pl_simplex Hu E) as (Hu' & Hlen & _). split; [apply in_l; eauto|]. rewrite Hdim, Hlen by auto. rewrite Hdim2 in Hg by auto. split; auto. now rewrite (phi_pl Hu E).
    - intros c r _ _ _ Hn. congruence.
  Qed.
End Codes.
