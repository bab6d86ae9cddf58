(** A reference shortest-path function (Bellman - Ford), to show that the contract of [shortest_path_library] can be met. *)
From Verif Require Import Base SpecWeighted.
From Coq Require Import Lia.
Set Implicit Arguments.

Section BellmanFord.
  Context {F : ordT} (add : F -> F -> F) (z : F).

  Definition omin2 (a b : option F) : option F :=
    match a, b with Some x, Some y => Some (if oleb x y then x else y) | Some x, None => Some x | None, _ => b end.
  (** the length of a shortest walk of at most [k] edges *)
  Fixpoint bellman (edges : list (nat * nat * F)) (k x y : nat) : option F :=
    match k with
    | O => if x =? y then Some z else None
    | S k => fold_left (fun acc (e : nat * nat * F) =>
        if snd (fst e) =? y then omin2 acc (match bellman edges k x (fst (fst e)) with Some d => Some (add d (snd e)) | None => None end) else acc)
        edges (bellman edges k x y)
    end.

  Hypothesis Hadd : nonneg_add add z.
  Hypothesis Hmono : forall a b w, ole a b -> ole (add a w) (add b w).
  Variables (n : nat) (edges : list (nat * nat * F)).
  Hypothesis Hw : weighted_digraph n z edges.
  Notation wk := (walk add z (edge_of edges)).

  Lemma wk_nonneg x y d : wk x y d -> ole z d.
  Proof. induction 1 as [|u y d w Hk IH Ha]; [apply ole_refl|]. apply Hw in Ha. destruct Hadd as [_ H]. eapply ole_trans; [exact IH|]. apply H; tauto. Qed.

  (** walks without repeated vertices *)
  Inductive vwalk (x : nat) : list nat -> nat -> F -> Prop :=
  | vw_nil : vwalk x [x] x z
  | vw_snoc l u y d w : vwalk x l u d -> In (u, y, w) edges -> ~ In y l -> vwalk x (y :: l) y (add d w).
  Lemma vwalk_walk x l y d : vwalk x l y d -> wk x y d.
  Proof. induction 1; [constructor|econstructor; eauto]. Qed.
  Lemma vwalk_nodup x l y d : vwalk x l y d -> NoDup l.
  Proof. induction 1; constructor; auto. constructor. Qed.
  Lemma vwalk_bound x l y d : x < n -> vwalk x l y d -> forall v, In v l -> v < n.
  Proof. intros Hx. induction 1 as [|l u y d w Hv IH Ha Hn]; [intros v [<-|[]]; auto|]. intros v [<-|Hi]; [apply Hw in Ha; tauto|auto]. Qed.
  Lemma vwalk_prefix x l y d : vwalk x l y d -> forall v, In v l -> exists l' d', vwalk x l' v d' /\ ole d' d.
  Proof.
    induction 1 as [|l u y d w Hv IH Ha Hn]; intros v Hi.
    - destruct Hi as [<-|[]]. exists [x], z. split; [constructor|apply ole_refl].
    - destruct Hi as [<-|Hi]; [exists (y :: l), (add d w); split; [econstructor; eauto|apply ole_refl]|]. destruct (IH v Hi) as (l' & d' & H1 & H2). exists l', d'. split; auto.
      eapply ole_trans; [exact H2|]. apply Hw in Ha. destruct Hadd as [_ H]. apply H; [|tauto]. exact (wk_nonneg (vwalk_walk Hv)).
  Qed.
  Lemma walk_vwalk x y d : wk x y d -> exists l d', vwalk x l y d' /\ ole d' d.
  Proof.
    induction 1 as [|u y d w Hk IH Ha]; [exists [x], z; split; [constructor|apply ole_refl]|]. destruct IH as (l & d' & H1 & H2).
    destruct (in_dec Nat.eq_dec y l) as [Hi|Hi].
    - destruct (vwalk_prefix H1 _ Hi) as (l' & d'' & H3 & H4). exists l', d''. split; auto. eapply ole_trans; [exact H4|]. eapply ole_trans; [exact H2|].
      apply Hw in Ha. destruct Hadd as [_ H]. apply H; [|tauto]. exact (wk_nonneg Hk).
    - exists (y :: l), (add d' w). split; [econstructor; eauto|auto].
  Qed.

  Definition ole_opt (a : option F) (d : F) : Prop := exists x, a = Some x /\ ole x d.
  Lemma omin2_l a b d : ole_opt a d -> ole_opt (omin2 a b) d.
  Proof.
    intros (x & -> & H). destruct b as [y|]; cbn [omin2]; [|exists x; auto]. destruct (oleb_spec x y) as [Hl|Hl]; [exists x; auto|]. exists y. split; auto.
    destruct (ole_total x y); [contradiction|]. eapply ole_trans; eauto.
  Qed.
  Lemma omin2_r a b d : ole_opt b d -> ole_opt (omin2 a b) d.
  Proof.
    intros (x & -> & H). destruct a as [y|]; cbn [omin2]; [|exists x; auto]. destruct (oleb_spec y x) as [Hl|Hl]; [exists y; split; auto; eapply ole_trans; eauto|]. exists x. auto.
  Qed.

  (** one round of relaxations *)
  Section Round.
    Variables (prev : nat -> option F) (y : nat).
    Notation step := (fun acc (e : nat * nat * F) =>
        if snd (fst e) =? y then omin2 acc (match prev (fst (fst e)) with Some d => Some (add d (snd e)) | None => None end) else acc).
    Lemma round_keep l acc d : ole_opt acc d -> ole_opt (fold_left step l acc) d.
    Proof. revert acc. induction l as [|e l IH]; intros acc H; cbn [fold_left]; auto. apply IH. destruct (snd (fst e) =? y); auto. now apply omin2_l. Qed.
    Lemma round_edge l acc u w d : In (u, y, w) l -> ole_opt (prev u) d -> ole_opt (fold_left step l acc) (add d w).
    Proof.
      intros Hi (x & Hx & Hd). revert acc. induction l as [|e l IH]; intros acc; [destruct Hi|]. cbn [fold_left]. destruct Hi as [->|Hi]; [|auto]. apply round_keep.
      cbn [fst snd]. rewrite Nat.eqb_refl, Hx. apply omin2_r. exists (add x w). auto.
    Qed.
    Lemma round_sound (P : F -> Prop) l acc : (forall x, acc = Some x -> P x) -> (forall u w d, In (u, y, w) l -> prev u = Some d -> P (add d w)) ->
      forall x, fold_left step l acc = Some x -> P x.
    Proof.
      revert acc. induction l as [|e l IH]; intros acc H1 H2; cbn [fold_left]; auto. apply IH; [|intros u w d Hi; apply H2; now right].
      intros x. destruct (Nat.eqb_spec (snd (fst e)) y) as [Ey|]; auto. destruct (prev (fst (fst e))) as [d|] eqn:Ep.
      - assert (Hn : P (add d (snd e))). { apply (H2 (fst (fst e))); auto. left. destruct e as [[u v] w]. cbn [fst snd] in *. now subst v. }
        destruct acc as [a|]; cbn [omin2]; [destruct (oleb a (add d (snd e)))|]; intros [= <-]; auto.
      - destruct acc as [a|]; cbn [omin2]; auto.
    Qed.
  End Round.

  Lemma bellman_sound k x : forall y d, bellman edges k x y = Some d -> wk x y d.
  Proof.
    induction k as [|k IH]; intros y d; cbn [bellman].
    - destruct (Nat.eqb_spec x y) as [<-|]; [intros [= <-]; constructor|discriminate].
    - apply round_sound; [apply IH|]. intros u w d' Hi Hd. econstructor; [exact (IH _ _ Hd)|exact Hi].
  Qed.
  Lemma bellman_complete x l y d : vwalk x l y d -> forall k, length l <= S k -> ole_opt (bellman edges k x y) d.
  Proof.
    induction 1 as [|l u y d w Hv IH Ha Hn]; intros k Hk.
    - clear Hk. assert (H0 : ole_opt (bellman edges 0 x x) z) by (exists z; split; [cbn [bellman]; now rewrite Nat.eqb_refl|apply ole_refl]).
      induction k as [|k IH]; auto. cbn [bellman]. now apply round_keep.
    - destruct k as [|k]; [destruct l as [|a l]; [inversion Hv|cbn [length] in Hk; lia]|]. cbn [bellman length] in *. apply round_edge with (u := u); auto. apply IH. lia.
  Qed.
End BellmanFord.

Lemma bellman_library (F : ordT) (add : F -> F -> F) (z : F) n : nonneg_add add z -> (forall a b w, ole a b -> ole (add a w) (add b w)) ->
  shortest_path_library add z n (fun edges => bellman add z edges n).
Proof.
  intros Hadd Hmono edges Hw x y Hx Hy.
  assert (Hc : forall d, walk add z (edge_of edges) x y d -> ole_opt (bellman add z edges n x y) d).
  { intros d Hk. destruct (walk_vwalk Hadd Hmono Hw Hk) as (l & d' & Hv & Hd).
    destruct (bellman_complete Hmono Hv (k:=n)) as (e & He & Hle).
    - assert (length l <= n); [|lia]. rewrite <- (seq_length n 0). apply NoDup_incl_length; [exact (vwalk_nodup Hv)|]. intros v Hi. apply in_seq. pose proof (vwalk_bound Hw Hx Hv v Hi). lia.
    - exists e. split; auto. eapply ole_trans; eauto. }
  split.
  - intros d Hd. split; [exact (bellman_sound add z edges n _ _ Hd)|]. intros d' Hk. destruct (Hc _ Hk) as (e & He & Hle). rewrite Hd in He. injection He as <-. exact Hle.
  - intros Hd d Hk. destruct (Hc _ Hk) as (e & He & _). congruence.
Qed.
Print Assumptions bellman_library.
