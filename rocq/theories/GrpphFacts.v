(** The model of the path-homology coboundary against its specification. *)
From Verif Require Import Base Fields FieldsFacts Spec LinAlg Columns Matrices SpecMat Reduction Rips GrpphCells Grpph SpecGrpph.
From Coq Require Import Ring_theory Lia.
Set Implicit Arguments.

Section IterMin.
  Context {T : ordT}.
  Lemma fold_min (l : list T) : forall a, let m := fold_left (fun m y => if oltb y m then y else m) l a in
    (m = a \/ In m l) /\ ole m a /\ forall x, In x l -> ole m x.
  Proof.
    induction l as [|y l IH]; intros a; simpl.
    - split; auto. split; [apply ole_refl|tauto].
    - destruct (IH (if oltb y a then y else a)) as (H1 & H2 & H3). set (m := fold_left _ l _) in *.
      assert (Hle : ole m a /\ ole m y).
      { destruct (oltb_spec y a) as [Hlt|Hn]; split; auto.
        - eapply ole_trans; [exact H2|]. now apply olt_le.
        - eapply ole_trans; [exact H2|]. now apply ole_not_lt. }
      split; [|split; [tauto|]].
      + destruct H1 as [->|H1]; auto. destruct (oltb y a); auto.
      + intros x [<-|Hx]; [tauto|auto].
  Qed.
  Lemma iter_min_spec (l : list T) : match iter_min l with
    | None => l = []
    | Some m => In m l /\ forall x, In x l -> ole m x
    end.
  Proof.
    destruct l as [|a l]; [reflexivity|]. cbn [iter_min]. destruct (fold_min l a) as (H1 & H2 & H3). split.
    - destruct H1 as [->|H1]; [now left|now right].
    - intros x [<-|Hx]; auto.
  Qed.
End IterMin.

Section Facts.
  Context {F : ordT} (time : nat -> nat -> option F) (n : nat) (z inf : F).
  Hypothesis HG : filtered_digraph time n z inf.
  Variable fil : dfil F.
  Hypothesis Hfil : forall s t, s < n -> t < n -> fil s t = Ok (time s t).
  Notation tp := (path_time time).

  Lemma no_loop s : time s s = None. Proof. apply HG. Qed.
  Lemma time_lt s t f : time s t = Some f -> s < n /\ t < n.
  Proof. intros H. apply HG in H. tauto. Qed.
  Lemma path_Some a b c f : tp a b c = Some f <-> exists f1 f2, time a b = Some f1 /\ time b c = Some f2 /\ f = omax f1 f2.
  Proof.
    unfold path_time. destruct (time a b) as [f1|], (time b c) as [f2|]; split; try discriminate; intros H;
      try (destruct H as (? & ? & ? & ? & ?); congruence).
    injection H as <-. eauto.
  Qed.
  Lemma path_lt a b c f : tp a b c = Some f -> a < n /\ b < n /\ c < n.
  Proof. intros H. apply path_Some in H. destruct H as (f1 & f2 & H1 & H2 & _). apply time_lt in H1, H2. tauto. Qed.
  Lemma path_neq a b c f : tp a b c = Some f -> a <> b /\ b <> c.
  Proof.
    intros H. apply path_Some in H. destruct H as (f1 & f2 & H1 & H2 & _).
    split; intros ->; rewrite no_loop in *; discriminate.
  Qed.
  Lemma path_inf a b c f : tp a b c = Some f -> olt f inf.
  Proof.
    intros H. apply path_Some in H. destruct H as (f1 & f2 & H1 & H2 & ->). apply HG in H1, H2.
    destruct (omax_case f1 f2) as [->| ->]; tauto.
  Qed.
  Lemma two_path_time_ok a b c : a < n -> b < n -> c < n -> two_path_time fil a b c = Ok (tp a b c).
  Proof.
    intros Ha Hb Hc. unfold two_path_time, path_time. rewrite !Hfil by auto. cbn [bind].
    destruct (time a b); cbn [bind]; auto. destruct (time b c); auto.
  Qed.

  (** *** primary bridges *)
  Lemma primary_unique a b b' c : primary_bridge time a b c -> primary_bridge time a b' c -> b = b'.
  Proof.
    intros [(f & Hf & _) H] [(f' & Hf' & _) H'].
    destruct (H b' f f' Hf Hf') as [H1|[-> H1]]; destruct (H' b f' _ Hf' Hf) as [H2|[E H2]]; try lia.
    - exfalso. eapply olt_irrefl, olt_trans; eauto.
    - subst. exfalso. eapply olt_irrefl; eauto.
    - exfalso. eapply olt_irrefl; eauto.
  Qed.
  Definition path_times (s t : nat) : list (F * nat) :=
    flat_map (fun i => match tp s i t with Some f => [(f, i)] | None => [] end) (seq 0 n).
  Lemma path_times_in s t f i : In (f, i) (path_times s t) <-> tp s i t = Some f.
  Proof.
    unfold path_times. rewrite in_flat_map. split.
    - intros (j & _ & H). destruct (tp s j t) as [f'|] eqn:E; [|destruct H]. destruct H as [[= <- <-]|[]]. exact E.
    - intros H. exists i. split; [apply in_seq; apply path_lt in H; lia|]. rewrite H. now left.
  Qed.
  (** the entry computed for (s, t) *)
  Definition bridge_of (s t : nat) : option nat :=
    match @iter_min (pair_ord F nat_ord) (path_times s t) with
    | None => None
    | Some (f, b) => match time s t with Some g => if oleb g f then None else Some b | None => Some b end
    end.
  Lemma bridge_of_spec s t b : bridge_of s t = Some b <-> primary_bridge time s b t.
  Proof.
    unfold bridge_of. pose proof (@iter_min_spec (pair_ord F nat_ord) (path_times s t)) as H.
    assert (Hle : forall f b f' b', @ole (pair_ord F nat_ord) (f, b) (f', b') -> olt f f' \/ (f = f' /\ b <= b')).
    { intros f b0 f' b' Hle. unfold ole in Hle. cbn [pair_ord cmp car] in Hle. unfold lex_cmp in Hle. cbn [fst snd] in Hle.
      destruct (cmp f f') eqn:E; [right|left; exact E|congruence]. apply cmp_eq in E. split; auto.
      cbn in Hle. apply Nat.compare_le_iff. exact Hle. }
    destruct (@iter_min (pair_ord F nat_ord) (path_times s t)) as [[f m]|].
    - destruct H as [Hin Hmin]. apply path_times_in in Hin.
      assert (Hm : forall b' f', tp s b' t = Some f' -> olt f f' \/ (f = f' /\ m <= b')).
      { intros b' f' E. apply Hle. apply Hmin. now apply path_times_in. }
      assert (HP : bridge time s m t -> primary_bridge time s m t).
      { intros Hb. split; auto. intros b' f1 f2 E1 E2. assert (f1 = f) as -> by congruence. auto. }
      assert (Hback : primary_bridge time s b t -> b = m).
      { intros [(f1 & E1 & _) H1]. destruct (Hm _ _ E1) as [H2|[<- H2]]; destruct (H1 _ _ _ E1 Hin) as [H3|[E H3]].
        - exfalso. eapply olt_irrefl, olt_trans; eauto.
        - subst. exfalso. eapply olt_irrefl; eauto.
        - exfalso. eapply olt_irrefl; eauto.
        - lia. }
      assert (Hbr : (forall g, time s t = Some g -> olt f g) <-> bridge time s m t).
      { split; [intros Hg; exists f; auto|]. intros (f' & E & Hg). assert (f' = f) as -> by congruence. auto. }
      destruct (time s t) as [g|] eqn:Eg.
      + destruct (oleb_spec g f) as [Hgf|Hgf].
        * split; [discriminate|]. intros HP'. exfalso. pose proof (Hback HP') as ->. destruct HP' as [Hb _]. apply Hbr with (g := g) in Hb; auto.
          eapply olt_not_le; eauto.
        * split; [intros [= <-]|intros Hb; f_equal; symmetry; auto]. apply HP, Hbr. intros g' [= <-]. now apply olt_not_le.
      + split; [intros [= <-]|intros Hb; f_equal; symmetry; auto]. apply HP, Hbr. discriminate.
    - split; [discriminate|]. intros [(f & E & _) _]. apply path_times_in in E. rewrite H in E. destruct E.
  Qed.
  Lemma bridge_has_primary a b c : bridge time a b c -> exists p, primary_bridge time a p c.
  Proof.
    intros (f & Ef & Hf). destruct (bridge_of a c) as [p|] eqn:E; [exists p; now apply bridge_of_spec|]. exfalso.
    unfold bridge_of in E. pose proof (@iter_min_spec (pair_ord F nat_ord) (path_times a c)) as H.
    assert (Hin : In (f, b) (path_times a c)) by now apply path_times_in.
    destruct (@iter_min (pair_ord F nat_ord) (path_times a c)) as [[f' m]|]; [|rewrite H in Hin; destruct Hin].
    destruct H as [_ Hmin]. destruct (time a c) as [g|]; [|discriminate]. destruct (oleb_spec g f') as [Hg|]; [|discriminate].
    apply Hmin in Hin. unfold ole in Hin. cbn [pair_ord cmp car] in Hin. unfold lex_cmp in Hin. cbn [fst snd] in Hin.
    assert (Hfg : olt f g) by auto. assert (Hle : ole f' f) by (unfold ole; intros E'; rewrite E' in Hin; congruence).
    eapply olt_not_le; [exact Hfg|]. eapply ole_trans; eauto.
  Qed.

  Definition ins_bridge (s : nat) (bm : kmap edge_ord nat) (t : nat) : kmap edge_ord nat :=
    match bridge_of s t with Some b => @map_insert edge_ord nat (s, t) b bm | None => bm end.

  Lemma foldM_pure {A S} (f : S -> A -> res S) (g : S -> A -> S) l :
    (forall s a, In a l -> f s a = Ok (g s a)) -> forall s, foldM f l s = Ok (fold_left g l s).
  Proof.
    induction l as [|a l IH]; intros H s; cbn [foldM fold_left]; auto.
    rewrite H by (now left). cbn [bind]. apply IH. intros s' a' Ha. apply H. now right.
  Qed.
  Lemma build_bridge_pure : build_primary_bridge_map fil n =
    Ok (fold_left (fun bm s => fold_left (ins_bridge s) (seq 0 n) bm) (seq 0 n) []).
  Proof.
    unfold build_primary_bridge_map. apply foldM_pure. intros bm s Hs. apply in_seq in Hs. apply foldM_pure. intros bm' t Ht. apply in_seq in Ht.
    rewrite (@filter_mapM_pure _ _ _ (fun i => match tp s i t with Some f => Some (f, i) | None => None end)).
    2:{ intros i Hi. apply in_seq in Hi. rewrite two_path_time_ok by lia. cbn [bind]. destruct (tp s i t); reflexivity. }
    cbn [bind]. unfold ins_bridge, bridge_of.
    replace (flat_map _ (seq 0 n)) with (path_times s t).
    2:{ unfold path_times. apply flat_map_ext. intros i. destruct (tp s i t); reflexivity. }
    destruct (@iter_min (pair_ord F nat_ord) (path_times s t)) as [[f b]|]; [|reflexivity]. rewrite Hfil by lia. cbn [bind].
    destruct (time s t) as [g|]; [|reflexivity]. destruct (oleb g f); reflexivity.
  Qed.
  Lemma ins_bridge_get (s t s' : nat) bm (t' : nat) :
    @map_get edge_ord nat (s, t) (ins_bridge s' bm t') =
    if (s =? s') && (t =? t') then match bridge_of s' t' with Some b => Some b | None => @map_get edge_ord nat (s, t) bm end
    else @map_get edge_ord nat (s, t) bm.
  Proof.
    unfold ins_bridge. destruct (bridge_of s' t') as [b|]; [|destruct (_ && _); reflexivity].
    rewrite map_get_insert. match goal with |- context [@oeqb ?T ?x ?y] => destruct (@oeqb_spec T x y) as [E|E] end.
    - injection E as -> ->. now rewrite !Nat.eqb_refl.
    - destruct (Nat.eqb_spec s s') as [->|Hs]; cbn [andb]; auto. destruct (Nat.eqb_spec t t') as [->|Ht]; auto. congruence.
  Qed.
  Lemma row_bridge_get (s t s' : nat) l : forall bm, @map_get edge_ord nat (s, t) (fold_left (ins_bridge s') l bm) =
    if (s =? s') && existsb (Nat.eqb t) l then match bridge_of s t with Some b => Some b | None => @map_get edge_ord nat (s, t) bm end
    else @map_get edge_ord nat (s, t) bm.
  Proof.
    induction l as [|t' l IH]; intros bm; cbn [fold_left existsb]; [now rewrite andb_false_r|].
    rewrite IH, ins_bridge_get. destruct (Nat.eqb_spec s s') as [->|]; cbn [andb]; auto.
    destruct (Nat.eqb_spec t t') as [->|]; cbn [orb]; auto. destruct (existsb _ l); auto. destruct (bridge_of s' t'); auto.
  Qed.
  Lemma all_bridge_get (s t : nat) l m : forall bm, @map_get edge_ord nat (s, t) (fold_left (fun bm s => fold_left (ins_bridge s) m bm) l bm) =
    if existsb (Nat.eqb s) l && existsb (Nat.eqb t) m then match bridge_of s t with Some b => Some b | None => @map_get edge_ord nat (s, t) bm end
    else @map_get edge_ord nat (s, t) bm.
  Proof.
    induction l as [|s' l IH]; intros bm; cbn [fold_left existsb andb]; auto.
    rewrite IH, row_bridge_get. destruct (Nat.eqb s s'); cbn [orb andb]; auto.
    destruct (existsb (Nat.eqb s) l); cbn [andb]; auto. destruct (existsb _ m); auto. destruct (bridge_of s t); auto.
  Qed.
  Lemma existsb_seq s : s < n -> existsb (Nat.eqb s) (seq 0 n) = true.
  Proof. intros H. apply existsb_exists. exists s. split; [apply in_seq; lia|apply Nat.eqb_refl]. Qed.
  Lemma existsb_seq_false s : n <= s -> existsb (Nat.eqb s) (seq 0 n) = false.
  Proof.
    intros H. destruct (existsb (Nat.eqb s) (seq 0 n)) eqn:E; auto. apply existsb_exists in E. destruct E as (x & Hx & E).
    apply in_seq in Hx. apply Nat.eqb_eq in E. lia.
  Qed.
  Theorem build_bridge_ok : exists bm, build_primary_bridge_map fil n = Ok bm /\
    forall s t, @map_get edge_ord nat (s, t) bm = bridge_of s t.
  Proof.
    eexists. split; [apply build_bridge_pure|]. intros s t. rewrite all_bridge_get. cbn [map_get].
    destruct (Nat.lt_ge_cases s n) as [Hs|Hs]; [destruct (Nat.lt_ge_cases t n) as [Ht|Ht]|].
    - rewrite !existsb_seq by auto. cbn [andb]. destruct (bridge_of s t); auto.
    - rewrite (existsb_seq_false Ht), andb_false_r. destruct (bridge_of s t) as [b|] eqn:E; auto.
      apply bridge_of_spec in E. destruct E as [(f & E & _) _]. apply path_lt in E. lia.
    - rewrite (existsb_seq_false Hs). cbn [andb]. destruct (bridge_of s t) as [b|] eqn:E; auto.
      apply bridge_of_spec in E. destruct E as [(f & E & _) _]. apply path_lt in E. lia.
  Qed.
End Facts.
