(** Histories of calls on a [BHCol] and their specification as operations on a formal sum. *)
From Verif Require Import Base Fields Spec LinAlg Columns ColumnsFacts.
From Coq Require Import Ring Field.
Set Implicit Arguments.

(** Calls a client can make on a column (columns.rs 130-238).  Taking [k] items of the
    lazy [drain_sorted] iterator is [k] calls of [pop_pivot]. *)
Inductive col_op (F R : ordT) (K : coeffT) : Type :=
| AddEntry (e : entry F R K)
| AddEntries (es : list (entry F R K))
| AddTuple (t : K * R * F)
| AddTuples (ts : list (K * R * F))
| PopPivot
| ClonePivot
| DrainSorted.
Arguments AddEntry {F R K} e.
Arguments AddEntries {F R K} es.
Arguments AddTuple {F R K} t.
Arguments AddTuples {F R K} ts.
Arguments PopPivot {F R K}.
Arguments ClonePivot {F R K}.
Arguments DrainSorted {F R K}.

Inductive col_obs (F R : ordT) (K : coeffT) : Type :=
| ObsNone
| ObsPivot (o : option (entry F R K))
| ObsList (es : list (entry F R K)).
Arguments ObsNone {F R K}.
Arguments ObsPivot {F R K} o.
Arguments ObsList {F R K} es.

(** running a call (model of columns.rs) *)
Definition col_step {HI : heaps} {F R : ordT} {K : coeffT} (h : bhcol HI F R K) (op : col_op F R K)
    : res (col_obs F R K * bhcol HI F R K) :=
  match op with
  | AddEntry e => Ok (ObsNone, add_entry h e)
  | AddEntries es => Ok (ObsNone, add_entries h es)
  | AddTuple t => Ok (ObsNone, add_tuple h t)
  | AddTuples ts => Ok (ObsNone, add_tuples h ts)
  | PopPivot => do (o, h') <- pop_pivot h; Ok (ObsPivot o, h')
  | ClonePivot => do (o, h') <- clone_pivot h; Ok (ObsPivot o, h')
  | DrainSorted => do (es, h') <- drain_sorted h; Ok (ObsList es, h')
  end.
Fixpoint col_run {HI : heaps} {F R : ordT} {K : coeffT} (h : bhcol HI F R K) (ops : list (col_op F R K))
    : res (list (col_obs F R K) * bhcol HI F R K) :=
  match ops with
  | [] => Ok ([], h)
  | op :: ops => do (o, h') <- col_step h op; do (os, h'') <- col_run h' ops; Ok (o :: os, h'')
  end.

(* ------------------------------------------------------------------ *)
(** ** Specification: the column is just the formal sum of what was added *)

(** the entries a call adds *)
Definition op_entries {F R : ordT} {K : coeffT} (op : col_op F R K) : list (entry F R K) :=
  match op with
  | AddEntry e => [e]
  | AddEntries es => es
  | AddTuple (c, r, f) => [Entry f r c]
  | AddTuples ts => map (fun t => let '(c, r, f) := t in Entry f r c) ts
  | _ => []
  end.

(** [e] is the leading term of the sum [d] *)
Definition is_pivot {F R : ordT} {K : coeffT} (phi : R -> F) (d : vec K R) (o : option (entry F R K)) : Prop :=
  match o with
  | None => vzero d
  | Some e => e_fil e = phi (e_row e) /\ leading phi d (e_row e) /\ d (e_row e) = Some (e_coeff e)
  end.

(** [es] lists the non-zero terms of [d], once each, in strictly decreasing row order *)
Definition is_canonical {F R : ordT} {K : coeffT} (phi : R -> F) (d : vec K R) (es : list (entry F R K)) : Prop :=
  (forall e, In e es -> e_fil e = phi (e_row e)) /\
  (forall r c, d r = Some c <-> In (Entry (phi r) r c) es) /\
  (forall A e B e' E, es = A ++ e :: B ++ e' :: E -> row_lt phi (e_row e') (e_row e)).

(** effect of a call on the formal sum [d] *)
Definition col_spec {F R : ordT} {K : coeffT} (phi : R -> F) (d : vec K R) (op : col_op F R K) (ob : col_obs F R K) (d' : vec K R) : Prop :=
  match op, ob with
  | PopPivot, ObsPivot o =>
      is_pivot phi d o /\
      forall r, d' r = match o with Some e => if oeqb (e_row e) r then f0 else d r | None => f0 end
  | ClonePivot, ObsPivot o => is_pivot phi d o /\ forall r, d' r = d r
  | DrainSorted, ObsList es => is_canonical phi d es /\ vzero d'
  | PopPivot, _ | ClonePivot, _ | DrainSorted, _ => False
  | _, ObsNone => forall r, d' r = fadd (d r) (coef (map e_term (op_entries op)) r)
  | _, _ => False
  end.
Fixpoint col_spec_run {F R : ordT} {K : coeffT} (phi : R -> F) (d : vec K R) (ops : list (col_op F R K)) (obs : list (col_obs F R K)) (d' : vec K R) : Prop :=
  match ops, obs with
  | [], [] => forall r, d' r = d r
  | op :: ops, ob :: obs => exists d1, col_spec phi d op ob d1 /\ col_spec_run phi d1 ops obs d'
  | _, _ => False
  end.

Section Proofs.
  Context {F R : ordT} {K : coeffT} (phi : R -> F).
  Add Field KFCO : (F_field K).

  Lemma desc_split es : desc (K:=K) phi es ->
    forall A e B e' E, es = A ++ e :: B ++ e' :: E -> row_lt phi (e_row e') (e_row e).
  Proof.
    induction es as [|x es IH]; intros Hd A e B e' E EE; [destruct A; discriminate|].
    destruct Hd as [H1 H2]. destruct A as [|a A]; simpl in EE; injection EE as <- EE.
    - apply H1. rewrite EE. apply in_app_iff. simpl; auto.
    - eapply IH; eauto.
  Qed.
  Lemma desc_canonical (d : vec K R) es : wfe phi es -> desc phi es -> (forall r, coef (map e_term es) r = d r) -> is_canonical phi d es.
  Proof.
    intros Hw Hd Hc. split; auto. split; [|now apply desc_split]. intros r c. rewrite <- Hc. split.
    - intros E. assert (Hn : coef (map e_term es) r <> f0) by (rewrite E; discriminate).
      apply coef_in in Hn. destruct Hn as [k Hk].
      assert (Hnd : NoDup (map snd (map e_term es))) by (rewrite map_map; apply (desc_nodup phi _ Hd)).
      pose proof (coef_nodup _ _ _ Hnd Hk) as E'. rewrite E in E'. injection E' as ->.
      apply in_map_iff in Hk. destruct Hk as (e & [= <- <-] & He). rewrite <- (Hw e He). now destruct e.
    - intros Hin. apply coef_nodup.
      + rewrite map_map. apply (desc_nodup phi _ Hd).
      + apply in_map_iff. eexists. split; [|exact Hin]. reflexivity.
  Qed.

  Lemma op_entries_add {HI : heaps} (h : bhcol HI F R K) op :
    match op with AddEntry _ | AddEntries _ | AddTuple _ | AddTuples _ => True | _ => False end ->
    col_step h op = Ok (ObsNone, add_entries h (op_entries op)).
  Proof.
    clear phi.     destruct op as [e|es|[[c r] f]|ts| | |]; simpl; try tauto; intros _; auto.
  Qed.

  Theorem col_run_spec {HI : heaps} (ops : list (col_op F R K)) : forall (h : bhcol HI F R K),
    wfc phi h -> (forall op e, In op ops -> In e (op_entries op) -> e_fil e = phi (e_row e)) ->
    exists obs h', col_run h ops = Ok (obs, h') /\ wfc phi h' /\ col_spec_run phi (den h) ops obs (den h').
  Proof.
    induction ops as [|op ops IH]; intros h Hw Hops; simpl.
    - exists [], h. auto.
    - assert (Hstep : exists ob h1, col_step h op = Ok (ob, h1) /\ wfc phi h1 /\ col_spec phi (den h) op ob (den h1)).
      { assert (Hadd : match op with AddEntry _ | AddEntries _ | AddTuple _ | AddTuples _ => True | _ => False end ->
          exists ob h1, col_step h op = Ok (ob, h1) /\ wfc phi h1 /\ col_spec phi (den h) op ob (den h1)).
        { intros Ha. rewrite (op_entries_add h op Ha). do 2 eexists. split; [reflexivity|]. split.
          - apply wfc_add_entries; auto. intros e He. apply (Hops op e); simpl; auto.
          - destruct op; simpl in Ha; try tauto; unfold col_spec; intros x; rewrite den_add_entries; ring. }
        destruct op as [e|es|t|ts| | |]; try (apply Hadd; exact I); clear Hadd; simpl.
        - destruct (pop_pivot_spec Hw) as (o & h1 & -> & Hw1 & Hr). cbn [bind]. do 2 eexists. split; [reflexivity|].
          split; auto. destruct o as [p|]; simpl.
          + destruct Hr as (H1 & H2 & H3 & H4 & _). auto.
          + destruct Hr as [H1 H2]. split; auto. intros r. unfold den. rewrite H2. reflexivity.
        - destruct (clone_pivot_spec Hw) as (o & h1 & -> & Hw1 & Hd & _ & Ho & _). cbn [bind]. do 2 eexists. split; [reflexivity|].
          split; auto. split; auto. destruct o as [p|]; simpl; tauto.
        - destruct (drain_sorted_spec Hw) as (es & h1 & -> & He & Hwe & Hde & Hce & _). cbn [bind]. do 2 eexists.
          split; [reflexivity|]. split.
          + intros e Hin. rewrite He in Hin. destruct Hin.
          + split; [now apply desc_canonical|]. intros r. unfold den. rewrite He. reflexivity. }
      destruct Hstep as (ob & h1 & -> & Hw1 & Hs). cbn [bind].
      destruct (IH h1 Hw1) as (obs & h' & -> & Hw' & Hsr); [intros; eapply Hops; simpl; eauto|]. cbn [bind].
      do 2 eexists. split; [reflexivity|]. split; auto. simpl. eauto.
  Qed.

  Lemma is_pivot_unique (d d' : vec K R) o o' : (forall r, d r = d' r) -> is_pivot phi d o -> is_pivot phi d' o' -> o = o'.
  Proof.
    intros E. destruct o as [p|], o' as [p'|]; simpl; auto.
    - intros (H1 & H2 & H3) (H1' & H2' & H3'). f_equal.
      assert (e_row p = e_row p').
      { eapply leading_unique; [exact H2|]. eapply leading_ext; [|exact H2']. auto. }
      destruct p, p'; simpl in *. subst. rewrite E in H3. congruence.
    - intros (_ & H2 & _) Hz. exfalso. eapply leading_not_zero; [exact H2|]. intros r. rewrite E. apply Hz.
    - intros Hz (_ & H2 & _). exfalso. eapply leading_not_zero; [exact H2|]. intros r. rewrite <- E. apply Hz.
  Qed.
  Lemma canonical_desc (d : vec K R) es : is_canonical phi d es ->
    wfe phi es /\ desc phi es /\ forall r, coef (map e_term es) r = d r.
  Proof.
    intros (H1 & H2 & H3). split; auto.
    assert (Hd : desc phi es).
    { clear - H3. induction es as [|e es IH]; simpl; auto. split.
      - intros e' He'. apply in_split in He'. destruct He' as (A & B & ->). apply (H3 [] e A e' B). reflexivity.
      - apply IH. intros A x B y E ->. apply (H3 (e :: A) x B y E). reflexivity. }
    split; auto. intros r.
    assert (Hnd : NoDup (map snd (map e_term es))) by (rewrite map_map; apply (desc_nodup phi _ Hd)).
    destruct (d r) as [c|] eqn:E.
    - apply H2 in E. apply coef_nodup; auto. apply in_map_iff. eexists. split; [|exact E]. reflexivity.
    - destruct (fscalar_dec (coef (map e_term es) r)) as [|Hn]; auto. exfalso.
      apply coef_in in Hn. destruct Hn as [k Hk]. apply in_map_iff in Hk. destruct Hk as (e & [= <- <-] & He).
      assert (d (e_row e) = Some (e_coeff e)); [|congruence]. apply H2. rewrite <- (H1 e He). now destruct e.
  Qed.
  Lemma is_canonical_unique (d d' : vec K R) es es' : (forall r, d r = d' r) -> is_canonical phi d es -> is_canonical phi d' es' -> es = es'.
  Proof.
    intros E H H'. apply canonical_desc in H, H'. destruct H as (H1 & H2 & H3), H' as (H1' & H2' & H3').
    apply (@desc_unique _ _ _ phi); auto. intros r. now rewrite H3, H3', E.
  Qed.

  (** the specification determines every observation *)
  Theorem col_spec_run_det ops : forall (d d' : vec K R) obs obs' e e',
    (forall r, d r = d' r) -> col_spec_run phi d ops obs e -> col_spec_run phi d' ops obs' e' ->
    obs = obs' /\ forall r, e r = e' r.
  Proof.
    induction ops as [|op ops IH]; intros d d' obs obs' e e' E H H'.
    - destruct obs, obs'; simpl in *; try tauto. split; auto. intros r. rewrite H, H'. auto.
    - destruct obs as [|ob obs], obs' as [|ob' obs']; simpl in *; try tauto.
      destruct H as (d1 & S1 & H), H' as (d1' & S1' & H').
      assert (Hob : ob = ob' /\ forall r, d1 r = d1' r).
      { destruct op as [x|x|x|x| | |]; destruct ob as [|o|es], ob' as [|o'|es']; simpl in S1, S1'; try tauto.
        - split; auto. intros r. now rewrite S1, S1', E.
        - split; auto. intros r. now rewrite S1, S1', E.
        - split; auto. intros r. now rewrite S1, S1', E.
        - split; auto. intros r. now rewrite S1, S1', E.
        - destruct S1 as [P1 Q1], S1' as [P1' Q1']. assert (o = o') by exact (@is_pivot_unique _ _ _ _ E P1 P1'). subst o'.
          split; auto. intros r. rewrite Q1, Q1'. destruct o; auto. now rewrite E.
        - destruct S1 as [P1 Q1], S1' as [P1' Q1']. assert (o = o') by exact (@is_pivot_unique _ _ _ _ E P1 P1'). subst o'.
          split; auto. intros r. now rewrite Q1, Q1', E.
        - destruct S1 as [P1 Q1], S1' as [P1' Q1']. assert (es = es') by exact (is_canonical_unique E P1 P1'). subst es'.
          split; auto. intros r. now rewrite Q1, Q1'. }
      destruct Hob as [-> Ed]. destruct (IH _ _ _ _ _ _ Ed H H') as [-> Ee]. auto.
  Qed.
End Proofs.
