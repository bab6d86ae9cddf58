(** Bars of positive length are determined by the numbers of bars alive. *)
From Verif Require Import Base Spec SpecGrpph SpecPath.
From Coq Require Import Permutation Lia.
Set Implicit Arguments.

Section Bars.
  Context {F : ordT}.
  (** bars with an optional death *)
  Notation bar := (F * option F)%type.
  Definition outlives (t : F) (d : option F) : bool := match d with None => true | Some d => oltb t d end.
  Definition seen (s t : F) (p : bar) : bool := oleb (fst p) s && outlives t (snd p).
  Definition nalive (s t : F) (L : list bar) : nat := length (filter (seen s t) L).
  Definition later (d d' : option F) : Prop := match d, d' with None, _ => True | Some _, None => False | Some x, Some y => ole y x end.
  Lemma later_refl d : later d d.
  Proof. destruct d; simpl; auto using ole_refl. Qed.
  Lemma later_total d d' : later d d' \/ later d' d.
  Proof. destruct d as [x|], d' as [y|]; simpl; auto. destruct (ole_total x y); auto. Qed.
  Lemma later_trans a b c : later a b -> later b c -> later a c.
  Proof. destruct a, b, c; simpl; intros; auto; try contradiction. eapply ole_trans; eauto. Qed.

  Lemma greatest {A : Type} (R : A -> A -> Prop) (Hr : forall a, R a a) (Ht : forall a b, R a b \/ R b a) (Htr : forall a b c, R a b -> R b c -> R a c) (l : list A) :
    l <> [] -> exists x, In x l /\ forall y, In y l -> R x y.
  Proof.
    induction l as [|a l IH]; intros Hne; [contradiction|]. destruct l as [|a' l].
    - exists a. split; [now left|]. intros y [<-|[]]. apply Hr.
    - destruct IH as (x & Hx & Hm); [discriminate|]. destruct (Ht a x) as [H|H].
      + exists a. split; [now left|]. intros y [<-|Hy]; [apply Hr|]. eapply Htr; eauto.
      + exists x. split; [now right|]. intros y [<-|Hy]; auto.
  Qed.
  Lemma extremal (L : list bar) : L <> [] -> exists x, In x L /\ (forall y, In y L -> later (snd x) (snd y)) /\ (forall y, In y L -> snd y = snd x -> ole (fst x) (fst y)).
  Proof.
    intros Hne. destruct (@greatest bar (fun x y => later (snd x) (snd y))) with (l := L) as (x & Hx & Hm); auto; intros; try apply later_refl; try apply later_total; [eapply later_trans; eauto|].
    destruct (@greatest bar (fun x y => ole (fst x) (fst y))) with (l := filter (fun y => match snd y, snd x with None, None => true | Some a, Some b => oeqb a b | _, _ => false end) L) as (y & Hy & Hmin);
      intros; try apply ole_refl; try apply ole_total; try (eapply ole_trans; eauto).
    - intros E. assert (H : In x []); [|destruct H]. rewrite <- E. apply filter_In. split; auto. destruct (snd x); auto. apply oeqb_refl.
    - apply filter_In in Hy. destruct Hy as [Hy Ey]. assert (E : snd y = snd x).
      { destruct (snd y) as [a|], (snd x) as [b|]; try discriminate; auto. destruct (oeqb_spec a b); congruence. }
      exists y. split; auto. split; [now rewrite E|]. intros y' Hy' E'. apply Hmin, filter_In. split; auto. rewrite E', E. destruct (snd x); auto. apply oeqb_refl.
  Qed.
  Lemma threshold (b : F) (d : option F) (l : list (option F)) : (match d with None => True | Some d => olt b d end) -> (forall d', In d' l -> later d d') ->
    exists t, ole b t /\ outlives t d = true /\ forall d', In d' l -> outlives t d' = true -> d' = d.
  Proof.
    intros Hd. induction l as [|a l IH]; intros Hl.
    - exists b. split; [apply ole_refl|]. split; [|intros d' []]. destruct d as [d|]; auto. simpl. destruct (oltb_spec b d); auto.
    - destruct IH as (t & H1 & H2 & H3); [intros d' Hi; apply Hl; now right|]. specialize (Hl a (or_introl eq_refl)).
      destruct a as [a|]; [|exists t; split; auto; split; auto; intros d' [<-|Hi]; auto; destruct d; simpl in Hl; [contradiction|auto]].
      destruct (oltb_spec t a) as [Hta|Hta].
      + assert (Hcase : d = Some a \/ outlives a d = true).
        { destruct d as [d|]; auto. simpl in Hl |- *. destruct (oltb_spec a d) as [|Hn]; auto. left. f_equal. apply ole_lt_eq in Hl. destruct Hl; [contradiction|auto]. }
        destruct Hcase as [-> |Hc].
        * exists t. split; auto. split; auto. intros d' [<-|Hi]; auto.
        * exists a. split; [eapply ole_trans; [exact H1|now apply olt_le]|]. split; auto. intros d' [<-|Hi] Ho.
          -- simpl in Ho. destruct (oltb_spec a a) as [Hx|]; [|discriminate]. apply olt_not_le in Hx. exfalso. apply Hx, ole_refl.
          -- apply H3; auto. destruct d' as [d'|]; auto. simpl in Ho |- *. destruct (oltb_spec a d') as [Hx|]; [|discriminate]. destruct (oltb_spec t d') as [|Hn]; auto. exfalso. apply Hn. eapply olt_trans; eauto.
      + exists t. split; auto. split; auto. intros d' [<-|Hi] Ho; auto. simpl in Ho. destruct (oltb_spec t a); [contradiction|discriminate].
  Qed.
  Definition valid (p : bar) : Prop := match snd p with None => True | Some d => olt (fst p) d end.
  Lemma isolate (L : list bar) : L <> [] -> (forall p, In p L -> valid p) ->
    exists x s t, In x L /\ ole s t /\ forall y, In y L -> (seen s t y = true <-> y = x).
  Proof.
    intros Hne Hv. destruct (extremal Hne) as ([b d] & Hx & Hl & Hm). cbn [fst snd] in *.
    destruct (@threshold b d (map snd L)) as (t & H1 & H2 & H3).
    - exact (Hv _ Hx).
    - intros d' Hi. apply in_map_iff in Hi. destruct Hi as (y & <- & Hy). auto.
    - exists (b, d), b, t. split; auto. split; auto. intros [b' d'] Hy. unfold seen. cbn [fst snd]. rewrite andb_true_iff. split.
      + intros [Hb Ho]. assert (E : d' = d) by (apply H3; auto; apply in_map_iff; exists (b', d'); auto). subst d'. f_equal.
        specialize (Hm _ Hy eq_refl). cbn [fst] in Hm. destruct (oleb_spec b' b) as [Hb'|]; [|discriminate]. apply ole_lt_eq in Hm. destruct Hm as [Hm|]; auto. apply olt_not_le in Hm. contradiction.
      + intros [= -> ->]. split; auto. destruct (oleb_spec b b) as [|Hn]; auto. exfalso. apply Hn, ole_refl.
  Qed.
  Lemma nalive_perm s t L L' : Permutation L L' -> nalive s t L = nalive s t L'.
  Proof. intros H. unfold nalive. induction H; simpl; auto; repeat (match goal with |- context[if ?c then _ else _] => destruct c end; simpl); try lia. Qed.
  Theorem bars_unique (n : nat) : forall L L' : list bar, length L + length L' <= n -> (forall p, In p (L ++ L') -> valid p) ->
    (forall s t, ole s t -> nalive s t L = nalive s t L') -> Permutation L L'.
  Proof.
    induction n as [|n IH]; intros L L' Hn Hv Ha.
    - destruct L, L'; simpl in Hn; try lia. constructor.
    - destruct (L ++ L') as [|p0 rest] eqn:E0.
      { apply app_eq_nil in E0. destruct E0 as [-> ->]. constructor. }
      destruct (@isolate (L ++ L')) as (x & s & t & Hx & Hst & Hiff); [rewrite E0; discriminate|now rewrite E0|].
      assert (Hin : forall M, (forall y, In y M -> In y (L ++ L')) -> (0 < nalive s t M <-> In x M)).
      { intros M HM. unfold nalive. split.
        - intros Hp. destruct (filter (seen s t) M) as [|y f] eqn:Ef; [simpl in Hp; lia|]. assert (Hy : In y (filter (seen s t) M)) by (rewrite Ef; now left).
          apply filter_In in Hy. destruct Hy as [Hy Hs]. apply Hiff in Hs; auto. now subst y.
        - intros Hi. assert (Hf : In x (filter (seen s t) M)) by (apply filter_In; split; auto; now apply Hiff). destruct (filter (seen s t) M); [destruct Hf|simpl; lia]. }
      assert (H1 : forall y, In y L -> In y (L ++ L')) by (intros; apply in_app_iff; auto).
      assert (H2 : forall y, In y L' -> In y (L ++ L')) by (intros; apply in_app_iff; auto).
      assert (HxL : In x L /\ In x L').
      { pose proof (Hin L H1) as I1. pose proof (Hin L' H2) as I2. rewrite (Ha s t Hst) in I1. apply in_app_iff in Hx. tauto. }
      destruct HxL as [Q1 Q2]. apply in_split in Q1, Q2. destruct Q1 as (A & B & ->). destruct Q2 as (A' & B' & ->).
      assert (P1 : Permutation (A ++ x :: B) (x :: A ++ B)) by (symmetry; apply Permutation_middle).
      assert (P2 : Permutation (A' ++ x :: B') (x :: A' ++ B')) by (symmetry; apply Permutation_middle).
      rewrite P1, P2. constructor. apply IH.
      + rewrite !app_length in *. simpl in Hn. lia.
      + intros p Hp. apply Hv. rewrite <- E0. apply in_app_iff in Hp. apply in_app_iff. destruct Hp as [Hp|Hp]; [left|right]; apply in_app_iff in Hp; apply in_app_iff; simpl; tauto.
      + intros s' t' H'. specialize (Ha s' t' H'). rewrite (nalive_perm s' t' P1), (nalive_perm s' t' P2) in Ha. unfold nalive in *. simpl in Ha. destruct (seen s' t' x); simpl in Ha; lia.
  Qed.

  Definition encode (es : list F) (ps : list (F * F)) : list bar := map (fun b => (b, None)) es ++ map (fun p => (fst p, Some (snd p))) ps.
  Lemma filter_map_length {A B : Type} (f : A -> B) (p : B -> bool) (l : list A) : length (filter p (map f l)) = length (filter (fun x => p (f x)) l).
  Proof. induction l as [|a l IH]; simpl; auto. destruct (p (f a)); simpl; lia. Qed.
  Lemma encode_alive s t es ps : nalive s t (encode es ps) = bars_alive s t es ps.
  Proof.
    unfold nalive, encode, bars_alive. rewrite filter_app, app_length, !filter_map_length. f_equal.
    f_equal. apply filter_ext. intros b. unfold seen. simpl. now rewrite andb_true_r.
  Qed.
  Fixpoint ess_of (L : list bar) : list F := match L with [] => [] | (b, None) :: L => b :: ess_of L | _ :: L => ess_of L end.
  Fixpoint prs_of (L : list bar) : list (F * F) := match L with [] => [] | (b, Some d) :: L => (b, d) :: prs_of L | _ :: L => prs_of L end.
  Lemma of_encode es ps : ess_of (encode es ps) = es /\ prs_of (encode es ps) = ps.
  Proof.
    unfold encode. induction es as [|b es [IH1 IH2]]; simpl.
    - induction ps as [|[b d] ps [IH1 IH2]]; simpl; [auto|]. split; congruence.
    - split; congruence.
  Qed.
  Lemma of_perm L L' : Permutation L L' -> Permutation (ess_of L) (ess_of L') /\ Permutation (prs_of L) (prs_of L').
  Proof.
    induction 1 as [|[b [d|]] L L' H [IH1 IH2]|[b [d|]] [b' [d'|]] L|L L' L'' H [IH1 IH2] H' [IH1' IH2']]; simpl; split; auto using perm_swap; etransitivity; eauto.
  Qed.
  (** essential births and (birth, death) pairs of positive length are determined, up to order, by the numbers of bars alive *)
  Theorem bars_determined (es es' : list F) (ps ps' : list (F * F)) :
    (forall b d, In (b, d) ps -> olt b d) -> (forall b d, In (b, d) ps' -> olt b d) ->
    (forall s t, ole s t -> bars_alive s t es ps = bars_alive s t es' ps') -> Permutation es es' /\ Permutation ps ps'.
  Proof.
    intros H1 H2 Ha. assert (Hp : Permutation (encode es ps) (encode es' ps')).
    { eapply bars_unique; [apply le_n| |intros s t Hst; rewrite !encode_alive; now apply Ha].
      assert (Hq : forall es ps, (forall b d, In (b, d) ps -> olt b d) -> forall p, In p (encode es ps) -> valid p).
      { clear. intros es ps H p Hp. apply in_app_iff in Hp. destruct Hp as [Hp|Hp]; apply in_map_iff in Hp; destruct Hp as (x & <- & Hx); [exact I|]. destruct x as [b d]. exact (H _ _ Hx). }
      intros p Hp. apply in_app_iff in Hp. destruct Hp as [Hp|Hp]; [exact (Hq _ _ H1 _ Hp)|exact (Hq _ _ H2 _ Hp)]. }
    apply of_perm in Hp. destruct (of_encode es ps) as [E3 E4]. destruct (of_encode es' ps') as [E1 E2]. rewrite E1, E2, E3, E4 in Hp. exact Hp.
  Qed.
End Bars.
