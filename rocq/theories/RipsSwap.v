(** Lemmas for C68: exchanging two neighbouring vertices does not change the persistent Betti numbers of the Rips complex. *)
From Verif Require Import Base Fields FieldsFacts Spec LinAlg Matrices Rips SpecRips RipsCode RipsFacts RipsBasis RipsComplex PropRips RipsCohomology PropRipsCohomology SpecPH Persistence BettiUnique RipsPersistence PropRipsPersistence BettiMaps.
From Coq Require Import Ring Field Permutation Sorted Lia.
Set Implicit Arguments.

Section Swap.
  Variable i : nat.
  Definition swap (v : nat) : nat := if v =? i then S i else if v =? S i then i else v.
  Lemma swap_swap v : swap (swap v) = v.
  Proof.
    unfold swap. destruct (Nat.eqb_spec v i) as [->|H1]; [|destruct (Nat.eqb_spec v (S i)) as [->|H2]].
    - destruct (Nat.eqb_spec (S i) i); [lia|]. now rewrite Nat.eqb_refl.
    - now rewrite Nat.eqb_refl.
    - destruct (Nat.eqb_spec v i); [lia|]. destruct (Nat.eqb_spec v (S i)); [lia|auto].
  Qed.
  Lemma swap_other v : v <> i -> v <> S i -> swap v = v.
  Proof. unfold swap. destruct (Nat.eqb_spec v i); [lia|]. destruct (Nat.eqb_spec v (S i)); [lia|auto]. Qed.
  Lemma swap_i : swap i = S i.
  Proof. unfold swap. now rewrite Nat.eqb_refl. Qed.
  Lemma swap_Si : swap (S i) = i.
  Proof. unfold swap. destruct (Nat.eqb_spec (S i) i); [lia|]. now rewrite Nat.eqb_refl. Qed.
  Lemma swap_lt n v : S i < n -> v < n -> swap v < n.
  Proof. unfold swap. destruct (Nat.eqb_spec v i); [lia|]. destruct (Nat.eqb_spec v (S i)); lia. Qed.
  Definition mem (v : nat) (s : list nat) : bool := if in_dec Nat.eq_dec v s then true else false.
  Definition both (s : list nat) : bool := mem i s && mem (S i) s.
  Lemma mem_iff v s : mem v s = true <-> In v s.
  Proof. unfold mem. destruct (in_dec Nat.eq_dec v s); intuition congruence. Qed.
  Lemma both_iff s : both s = true <-> In i s /\ In (S i) s.
  Proof. unfold both. rewrite andb_true_iff, !mem_iff. tauto. Qed.
  Definition mvs (s : list nat) : list nat := if both s then s else map swap s.
  Lemma mvs_in v s : In v (mvs s) <-> In (swap v) s.
  Proof.
    unfold mvs. destruct (both s) eqn:E.
    - apply both_iff in E. destruct E as [E1 E2]. destruct (Nat.eq_dec v i) as [->|H1]; [rewrite swap_i; tauto|].
      destruct (Nat.eq_dec v (S i)) as [->|H2]; [rewrite swap_Si; tauto|]. now rewrite swap_other.
    - rewrite in_map_iff. split; [intros (x & <- & Hx); now rewrite swap_swap|]. intros H. exists (swap v). split; auto. apply swap_swap.
  Qed.
  Lemma both_mvs s : both (mvs s) = both s.
  Proof.
    destruct (both s) eqn:E.
    - apply both_iff. rewrite !mvs_in, swap_i, swap_Si. apply both_iff in E. tauto.
    - apply not_true_iff_false. intros H. apply both_iff in H. rewrite !mvs_in, swap_i, swap_Si in H. assert (both s = true) by (apply both_iff; tauto). congruence.
  Qed.
  Lemma mvs_mvs s : mvs (mvs s) = s.
  Proof.
    unfold mvs at 1. rewrite both_mvs. unfold mvs. destruct (both s); auto. rewrite map_map, <- (map_id s) at 1. rewrite map_id. rewrite (map_ext (fun x => swap (swap x)) (fun x => x)) by apply swap_swap. apply map_id.
  Qed.
  Lemma mvs_length s : length (mvs s) = length s.
  Proof. unfold mvs. destruct (both s); auto. apply map_length. Qed.
  Lemma mvs_simplex n s : S i < n -> simplex n s -> simplex n (mvs s).
  Proof.
    intros Hi (H1 & H2 & H3). unfold mvs. destruct (both s) eqn:E; [now split|]. split; [destruct s; [congruence|discriminate]|]. split.
    - assert (HB : ~ (In i s /\ In (S i) s)) by (rewrite <- both_iff; congruence). clear H1 H3 E. induction H2 as [|v s Hs IH Hv]; [constructor|]. cbn [map]. constructor.
      + apply IH. intros [A B]. apply HB. split; now right.
      + apply Forall_forall. intros x Hx. apply in_map_iff in Hx. destruct Hx as (w & <- & Hw). rewrite Forall_forall in Hv. specialize (Hv w Hw).
        unfold swap. destruct (Nat.eqb_spec v i) as [->|]; destruct (Nat.eqb_spec w i) as [->|]; try lia.
        * destruct (Nat.eqb_spec w (S i)) as [->|]; [|lia]. exfalso. apply HB. split; [now left|now right].
        * destruct (Nat.eqb_spec v (S i)); lia.
        * destruct (Nat.eqb_spec v (S i)); destruct (Nat.eqb_spec w (S i)); lia.
    - apply Forall_forall. intros x Hx. apply in_map_iff in Hx. destruct Hx as (w & <- & Hw). apply swap_lt; auto. rewrite Forall_forall in H3. auto.
  Qed.
  Lemma map_swap_other l : (forall v, In v l -> v <> i /\ v <> S i) -> map swap l = l.
  Proof. intros H. rewrite <- (map_id l) at 2. apply map_ext_in. intros v Hv. apply swap_other; now apply H. Qed.
  Lemma both_split t : StronglySorted lt t -> both t = true -> exists a b, t = a ++ i :: S i :: b /\ (forall v, In v a \/ In v b -> v <> i /\ v <> S i).
  Proof.
    intros Hs Hb. apply both_iff in Hb. destruct Hb as [H1 H2]. apply in_split in H1. destruct H1 as (a & b & ->).
    assert (Ha : forall v, In v a -> v < i).
    { clear H2. induction a as [|x a IH]; intros v []; cbn [app] in Hs; apply StronglySorted_inv in Hs; destruct Hs as [Hs Hx]; auto. subst x. rewrite Forall_forall in Hx. apply Hx. apply in_or_app. right. now left. }
    assert (Hb : StronglySorted lt (i :: b)). { clear H2 Ha. induction a as [|x a IH]; auto. apply IH. now apply StronglySorted_inv in Hs. }
    apply StronglySorted_inv in Hb. destruct Hb as [Hb Hib]. rewrite Forall_forall in Hib.
    assert (H3 : In (S i) b). { apply in_app_iff in H2. destruct H2 as [H2|[H2|H2]]; auto; [apply Ha in H2; lia|lia]. }
    destruct b as [|x b]; [destruct H3|]. apply StronglySorted_inv in Hb. destruct Hb as [_ Hx]. rewrite Forall_forall in Hx.
    assert (x = S i). { pose proof (Hib x ltac:(now left)). destruct H3 as [|H3]; auto. specialize (Hx _ H3). lia. }
    subst x. exists a, b. split; auto. intros v [Hv|Hv]; [apply Ha in Hv; lia|]. specialize (Hx v Hv). lia.
  Qed.
  Lemma split_unique (a b a' b' : list nat) v : NoDup (a ++ v :: b) -> a ++ v :: b = a' ++ v :: b' -> a = a' /\ b = b'.
  Proof.
    revert a'. induction a as [|x a IH]; intros [|x' a'] Hn E; cbn [app] in *.
    - injection E. auto.
    - injection E as <- ->. exfalso. inversion Hn as [|? ? Hno _]; subst. apply Hno. apply in_or_app. right. now left.
    - injection E as -> <-. exfalso. inversion Hn as [|? ? Hno _]; subst. apply Hno. apply in_or_app. right. now left.
    - injection E as <- E. inversion Hn; subst. destruct (IH a') as [-> ->]; auto.
  Qed.
  Context {K : coeffT}.
  Add Field KFsw : (F_field K).
  Definition sns (s : list nat) : option K := if both s then fopp f1 else f1.
  Lemma sns_square s : fmul (sns s) (sns s) = f1.
  Proof. unfold sns. destruct (both s); ring. Qed.
  Lemma sign_S j : sign K (S j) = fopp (sign K j).
  Proof. unfold sign. rewrite Nat.even_succ, <- Nat.negb_even. destruct (Nat.even j); cbn [negb]; ring. Qed.
  Lemma facet_both t j s : facet t j s -> both s = true -> both t = true.
  Proof.
    intros (l1 & v & l2 & -> & -> & _) H. apply both_iff in H. apply both_iff. rewrite !in_app_iff in *. simpl. tauto.
  Qed.
  Lemma facet_swap t j s : StronglySorted lt t -> facet t j s ->
    exists j', facet (mvs t) j' (mvs s) /\ sign K j' = fmul (fmul (sns t) (sns s)) (sign K j).
  Proof.
    intros Hs Hf. destruct (both t) eqn:Et.
    - destruct (both s) eqn:Es.
      + exists j. unfold mvs, sns. rewrite Et, Es. split; auto. ring.
      + pose proof (sorted_nodup Hs) as Hnd. destruct (both_split Hs Et) as (a & b & E & Hab). destruct Hf as (l1 & v & l2 & E1 & E2 & <-).
        assert (Hv : v = i \/ v = S i).
        { destruct (Nat.eq_dec v i) as [|H1]; auto. destruct (Nat.eq_dec v (S i)) as [|H2]; auto. exfalso. assert (both s = true); [|congruence].
          apply both_iff in Et. apply both_iff. subst t s. rewrite !in_app_iff in *. simpl in Et. clear - H1 H2 Et. destruct Et as [[A|[A|A]] [B|[B|B]]]; try (exfalso; congruence); auto. }
        unfold mvs, sns. rewrite Et, Es. destruct Hv as [->| ->].
        * destruct (@split_unique l1 l2 a (S i :: b) i) as [-> ->]; [now rewrite <- E1|now rewrite <- E1|]. exists (S (length a)). split.
          -- exists (a ++ [i]), (S i), b. rewrite E, E2, <- !app_assoc. split; auto. split; [|rewrite app_length; simpl; lia].
             rewrite map_app. cbn [map]. rewrite swap_Si, !map_swap_other; auto.
          -- rewrite sign_S. ring.
        * destruct (@split_unique l1 l2 (a ++ [i]) b (S i)) as [-> ->]; [now rewrite <- E1|rewrite <- E1, <- app_assoc; exact E|]. exists (length a). split.
          -- exists a, i, (S i :: b). split; auto. split; auto. rewrite E2, <- app_assoc, map_app. cbn [map app]. rewrite swap_i, !map_swap_other; auto.
          -- rewrite app_length. simpl length. rewrite Nat.add_1_r, sign_S. ring.
    - assert (Es : both s = false) by (destruct (both s) eqn:Es; auto; rewrite (facet_both Hf Es) in Et; discriminate).
      exists j. unfold mvs, sns. rewrite Et, Es. split; [|ring]. destruct Hf as (l1 & v & l2 & -> & -> & <-). exists (map swap l1), (swap v), (map swap l2). rewrite !map_app, map_length. auto.
  Qed.
End Swap.

(** ** On codes *)
Section Codes.
  Context {K : coeffT} {F : ordT} (z : F) (d d' : list (list F)) (i : nat).
  Notation n := (length d).
  Hypothesis Hlen : length d' = n.
  Hypothesis Hi : S i < n.
  Hypothesis Hdd : forall a b, a < n -> b < n -> dist z d' (swap i a) (swap i b) = dist z d a b.
  Variables (phi phi' : N_ord -> F) (D : N_ord -> vec K N_ord) (dim : N_ord -> Z) (k : nat) (l : list N_ord).
  Hypothesis Hphi : rips_filtration z d phi.
  Hypothesis Hphi' : rips_filtration z d' phi'.
  Hypothesis HD : rips_boundary_matrix n D.
  Hypothesis Hdim : simplex_dim n dim.
  Hypothesis Hl : lists_simplices n k l.
  Add Field KFsw2 : (F_field K).
  Definition mvc (c : N_ord) : N_ord := match to_vec n c with Ok s => code n (mvs i s) | _ => c end.
  Definition snc (c : N_ord) : option K := match to_vec n c with Ok s => sns i s | _ => f1 end.
  Lemma mvc_code s : simplex n s -> mvc (code n s) = code n (mvs i s).
  Proof. intros H. unfold mvc. rewrite to_vec_code by apply H. reflexivity. Qed.
  Lemma snc_code s : simplex n s -> snc (code n s) = sns i s.
  Proof. intros H. unfold snc. rewrite to_vec_code by apply H. reflexivity. Qed.
  Lemma inc_mvs t s : simplex n t -> simplex n s -> (inc (mvs i t) (mvs i s) : option K) = fmul (fmul (sns i t) (sns i s)) (inc t s).
  Proof.
    intros Ht Hs. assert (Hnd : forall u, simplex n u -> NoDup u) by (intros u (_ & Hu & _); now apply sorted_nodup).
    destruct (facet_dec t s) as [(j & Hf)|Hno].
    - destruct (@facet_swap i K t j s (proj1 (proj2 Ht)) Hf) as (j' & Hf' & E). rewrite (inc_facet (Hnd t Ht) Hf). rewrite <- E. apply inc_facet; auto. apply Hnd. now apply mvs_simplex.
    - rewrite !inc_none; auto; [ring|]. intros j Hf. destruct (@facet_swap i K _ j _ (proj1 (proj2 (mvs_simplex Hi Ht))) Hf) as (j' & Hf' & _). rewrite !mvs_mvs in Hf'. exact (Hno _ Hf').
  Qed.
  Lemma swap_betti q s t b : persistent_betti phi dim (-1) l D q s t b -> persistent_betti phi' dim (-1) l D q s t b.
  Proof.
    apply (@signed_betti K F N_ord dim (-1)%Z l D mvc snc phi phi').
    - apply Hl.
    - apply (sb_complex HD Hl).
    - intros c Hc. apply Hl in Hc. destruct Hc as (u & Hu & Hk & ->). rewrite mvc_code by auto. apply Hl. exists (mvs i u). split; [now apply mvs_simplex|]. now rewrite mvs_length.
    - intros c Hc. apply Hl in Hc. destruct Hc as (u & Hu & Hk & ->). rewrite mvc_code by auto. rewrite mvc_code by now apply mvs_simplex. now rewrite mvs_mvs.
    - intros c Hc. apply Hl in Hc. destruct Hc as (u & Hu & Hk & ->). rewrite snc_code by auto. apply sns_square.
    - intros c Hc. apply Hl in Hc. destruct Hc as (u & Hu & Hk & ->). rewrite mvc_code by auto. rewrite !snc_code by (auto; now apply mvs_simplex). unfold sns. now rewrite both_mvs.
    - intros c Hc. apply Hl in Hc. destruct Hc as (u & Hu & Hk & ->). rewrite mvc_code by auto. rewrite !Hdim by (auto; now apply mvs_simplex). now rewrite mvs_length.
    - intros c r Hc Hr. apply Hl in Hc. destruct Hc as (u & Hu & Hk & ->). apply Hl in Hr. destruct Hr as (v & Hv & Hk' & ->).
      rewrite !mvc_code, !snc_code by auto. rewrite !(sb_inc HD) by (auto; now apply mvs_simplex). now apply inc_mvs.
    - intros c Hc. apply Hl in Hc. destruct Hc as (u & Hu & Hk & ->). rewrite mvc_code by auto. 
      assert (Hu' : simplex (length d') (mvs i u)) by (rewrite Hlen; now apply mvs_simplex). apply Hphi' in Hu'. rewrite Hlen in Hu'.
      assert (Hb : forall x, In x u -> x < n) by (intros x Hx; exact (proj1 (Forall_forall _ _) (proj2 (proj2 Hu)) x Hx)).
      eapply diameter_unique; [|exact (Hphi Hu)]. destruct Hu' as [(x & y & Hx & Hy & E) Hm]. rewrite mvs_in in Hx, Hy. split.
      + exists (swap i x), (swap i y). split; auto. split; auto. rewrite <- E, <- Hdd by auto. now rewrite !swap_swap.
      + intros x' y' Hx' Hy'. rewrite <- Hdd by auto. apply Hm; rewrite mvs_in, swap_swap; auto.
  Qed.
End Codes.

(** ** Any reordering *)
Section Order.
  Context {F : ordT} (z : F) (d : list (list F)).
  Notation n := (length d).
  Definition reorder (p : list nat) : list (list F) := map (fun a => map (fun b => dist z d a b) p) p.
  Lemma reorder_length p : length (reorder p) = length p.
  Proof. apply map_length. Qed.
  Lemma reorder_dist p x y : x < length p -> y < length p -> dist z (reorder p) x y = dist z d (nth x p 0) (nth y p 0).
  Proof.
    intros Hx Hy. unfold dist at 1, reorder. rewrite (nth_indep _ [] (map (fun b => dist z d 0 b) p)) by now rewrite map_length.
    rewrite (map_nth (fun a => map (fun b => dist z d a b) p) p 0 x). rewrite (nth_indep _ z (dist z d (nth x p 0) 0)) by now rewrite map_length.
    now rewrite (map_nth (fun b => dist z d (nth x p 0) b) p 0 y).
  Qed.
  Context {K : coeffT} (D : N_ord -> vec K N_ord) (dim : N_ord -> Z) (k : nat) (l : list N_ord) (q : Z) (s t : F) (b : nat).
  Hypothesis HD : rips_boundary_matrix n D.
  Hypothesis Hdim : simplex_dim n dim.
  Hypothesis Hl : lists_simplices n k l.
  Add Field KFsw3 : (F_field K).
  Lemma same_phi_betti (phi phi' : N_ord -> F) : (forall c, In c l -> phi' c = phi c) -> persistent_betti phi dim (-1) l D q s t b -> persistent_betti phi' dim (-1) l D q s t b.
  Proof.
    intros H. apply (@signed_betti K F N_ord dim (-1)%Z l D (fun c => c) (fun _ => f1) phi phi'); auto.
    - apply Hl.
    - apply (sb_complex HD Hl).
    - intros; ring.
    - intros; ring.
  Qed.
  Lemma reorder_betti p p' : Permutation_transp p p' -> Permutation p (seq 0 n) -> forall phi phi' : N_ord -> F, rips_filtration z (reorder p) phi -> rips_filtration z (reorder p') phi' ->
    persistent_betti phi dim (-1) l D q s t b -> persistent_betti phi' dim (-1) l D q s t b.
  Proof.
    induction 1 as [p|x y l1 l2|p p' p'' H1 IH1 H2 IH2]; intros Hp phi phi' H H'.
    - apply same_phi_betti. intros c Hc. apply Hl in Hc. destruct Hc as (u & Hu & _ & ->). assert (E : length (reorder p) = n) by (rewrite reorder_length, (Permutation_length Hp); apply seq_length).
      rewrite <- E in Hu. pose proof (H u Hu) as A. pose proof (H' u Hu) as B. rewrite E in A, B. eapply diameter_unique; eauto.
    - assert (E : length (reorder (l1 ++ y :: x :: l2)) = n) by (rewrite reorder_length, (Permutation_length Hp); apply seq_length).
      assert (E' : length (reorder (l1 ++ x :: y :: l2)) = length (reorder (l1 ++ y :: x :: l2))) by (rewrite !reorder_length, !app_length; reflexivity).
      rewrite <- E in HD, Hdim, Hl.
      apply (@swap_betti K F z (reorder (l1 ++ y :: x :: l2)) (reorder (l1 ++ x :: y :: l2)) (length l1)) with (k := k); auto.
      + rewrite reorder_length, app_length. simpl. lia.
      + intros u v Hu Hv. rewrite reorder_length in Hu, Hv. assert (Hi : S (length l1) < length (l1 ++ y :: x :: l2)) by (rewrite app_length; simpl; lia).
        assert (Hll : length (l1 ++ x :: y :: l2) = length (l1 ++ y :: x :: l2)) by (rewrite !app_length; reflexivity).
        rewrite !reorder_dist; auto; try (rewrite Hll; now apply swap_lt).
        assert (Hnth : forall u, nth (swap (length l1) u) (l1 ++ x :: y :: l2) 0 = nth u (l1 ++ y :: x :: l2) 0).
        { intros w. destruct (Nat.eq_dec w (length l1)) as [->|W1]; [|destruct (Nat.eq_dec w (S (length l1))) as [->|W2]].
          - rewrite swap_i, !app_nth2 by lia. rewrite Nat.sub_diag, Nat.sub_succ_l, Nat.sub_diag by lia. reflexivity.
          - rewrite swap_Si, !app_nth2 by lia. rewrite Nat.sub_diag, Nat.sub_succ_l, Nat.sub_diag by lia. reflexivity.
          - rewrite swap_other by auto. destruct (Nat.lt_ge_cases w (length l1)); [now rewrite !app_nth1 by lia|]. rewrite !app_nth2 by lia. destruct (w - length l1) as [|[|m]] eqn:Em; try lia. reflexivity. }
        now rewrite !Hnth.
    - assert (Hp' : Permutation p' (seq 0 n)) by (etransitivity; [symmetry; apply Permutation_Permutation_transp; exact H1|exact Hp]).
      intros Hb. apply (IH2 Hp' (any_phi z (reorder p')) phi'); auto; [apply any_phi_ok|]. apply (IH1 Hp phi); auto. apply any_phi_ok.
  Qed.
End Order.
