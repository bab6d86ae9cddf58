(** Properties of columns (C06-C10). *)
From Verif Require Import Base Fields FieldsFacts Spec LinAlg Columns ColumnsFacts ColumnOps.
From Coq Require Import Ring Field.
Set Implicit Arguments.

Section Props.
  Context {HI : heaps} {F R : ordT} {K : coeffT} (phi : R -> F).

  (** C06.  [pop_pivot] on a column holding the multiset [elems h] of entries. *)
  Theorem C06_pop_pivot (h : bhcol HI F R K) :
    (forall e, In e (elems h) -> e_fil e = phi (e_row e)) ->
    let total := coef (map e_term (elems h)) in
    exists o h', pop_pivot h = Ok (o, h') /\
      (o = None <-> vzero total) /\
      (forall e, In e (elems h') -> e_fil e = phi (e_row e)) /\
      match o with
      | None => elems h' = []
      | Some p =>
          e_fil p = phi (e_row p) /\
          leading phi total (e_row p) /\ total (e_row p) = Some (e_coeff p) /\
          (forall r, r <> e_row p -> coef (map e_term (elems h')) r = total r) /\
          coef (map e_term (elems h')) (e_row p) = f0 /\
          (forall e, In e (elems h') -> row_lt phi (e_row e) (e_row p))
      end.
  Proof.
    intros Hw total. destruct (pop_pivot_spec Hw) as (o & h' & E & Hr). exists o, h'. split; auto.
    split; [exact (pivot_none_iff Hr)|]. destruct Hr as [Hw' Hr]. split; auto. destruct o as [p|]; [|tauto].
    destruct Hr as (H1 & H2 & H3 & H4 & H5 & H6). split; auto. split; auto. split; auto. unfold den in H4. split.
    - intros r Hne. rewrite H4. destruct (oeqb_spec (e_row p) r); [congruence|reflexivity].
    - split; auto. rewrite H4. now rewrite oeqb_refl.
  Qed.

  (** C07.  Draining gives the canonical form. *)
  Theorem C07_drain_sorted (h : bhcol HI F R K) :
    (forall e, In e (elems h) -> e_fil e = phi (e_row e)) ->
    exists es h', drain_sorted h = Ok (es, h') /\ to_sorted_vec h = Ok es /\ elems h' = [] /\
      is_canonical phi (coef (map e_term (elems h))) es.
  Proof.
    intros Hw. destruct (drain_sorted_spec Hw) as (es & h' & E & H1 & H2 & H3 & H4 & _).
    exists es, h'. split; auto. unfold to_sorted_vec. rewrite E. split; auto. split; auto.
    now apply desc_canonical.
  Qed.
  (** the canonical form is unique: nothing else may be returned *)
  Theorem C07_canonical_unique (d : vec K R) (es es' : list (entry F R K)) :
    is_canonical phi d es -> is_canonical phi d es' -> es = es'.
  Proof. apply is_canonical_unique. auto. Qed.

  (** C08.  [clone_pivot] then [peek_pivot]. *)
  Theorem C08_clone_pivot (h : bhcol HI F R K) :
    (forall e, In e (elems h) -> e_fil e = phi (e_row e)) ->
    exists o h' h'', clone_pivot h = Ok (o, h') /\ pop_pivot h = Ok (o, h'') /\
      is_pivot phi (coef (map e_term (elems h))) o /\
      (forall r, coef (map e_term (elems h')) r = coef (map e_term (elems h)) r) /\
      (forall e, In e (elems h') -> e_fil e = phi (e_row e)) /\
      peek_pivot h' = o /\
      (peek_pivot h' = None <-> vzero (coef (map e_term (elems h)))).
  Proof.
    intros Hw. destruct (clone_pivot_spec Hw) as (o & h' & E & Hw' & Hd & Hp & Ho & h'' & E').
    exists o, h', h''. repeat (split; [solve [auto]|]). split.
    - destruct o as [p|]; simpl in *; tauto.
    - split; auto. split; auto. split; auto. rewrite Hp. destruct o as [p|]; split; auto; try discriminate.
      intros Hz. destruct Ho as (_ & Ho & _). unfold den in Ho. rewrite Hz in Ho. discriminate.
  Qed.

  (** C09.  Every history of calls on a column never panics and is a history of the formal sum of what was added. *)
  Theorem C09_history (ops : list (col_op F R K)) :
    (forall op e, In op ops -> In e (op_entries op) -> e_fil e = phi (e_row e)) ->
    exists obs h', col_run (empty_bhcol HI F R K) ops = Ok (obs, h') /\
      col_spec_run phi (fun _ => f0) ops obs (coef (map e_term (elems h'))).
  Proof.
    intros Hops. destruct (@col_run_spec F R K phi HI ops (empty_bhcol HI F R K)) as (obs & h' & E & Hw & Hs).
    - apply wfc_empty.
    - exact Hops.
    - exists obs, h'. split; auto.
      assert (Ed : forall r, den (empty_bhcol HI F R K) r = f0) by (intros; apply den_empty).
      revert Hs Ed. unfold den. generalize (coef (map e_term (elems (empty_bhcol HI F R K)))). clear.
      intros d Hs Ed. revert Hs. generalize (coef (map e_term (elems h'))). intros v.
      assert (G : forall ops obs (d d' : vec K R) v, (forall r, d r = d' r) -> col_spec_run phi d ops obs v -> col_spec_run phi d' ops obs v).
      { clear. induction ops as [|op ops IH]; intros [|ob obs] d d' v E; simpl; auto.
        - intros H r. now rewrite H.
        - intros (d1 & Hs & Hr). exists d1. split; auto. revert Hs.
          destruct op, ob as [|o|l0]; simpl; auto.
          1-4: intros H r; rewrite H, E; reflexivity.
          + intros [H1 H2]. split.
            * destruct o as [p|]; simpl in *; [|intros r; now rewrite <- E].
              destruct H1 as (A & [B1 B2] & D). split; auto. unfold leading. rewrite <- E. repeat split; auto.
              intros r Hr'. rewrite <- E. auto.
            * intros r. rewrite H2. destruct o; auto. now rewrite E.
          + intros [H1 H2]. split.
            * destruct o as [p|]; simpl in *; [|intros r; now rewrite <- E].
              destruct H1 as (A & [B1 B2] & D). split; auto. unfold leading. rewrite <- E. repeat split; auto.
              intros r Hr'. rewrite <- E. auto.
            * intros r. now rewrite H2, E.
          + intros [(H1 & H2 & H3) H4]. split; auto. split; auto. split; auto. intros r c. rewrite <- E. auto. }
      intros Hs. now apply (G _ _ _ _ _ Ed).
  Qed.
End Props.

(** C09.  Two columns (possibly of different heap implementations) representing the
    same sum are indistinguishable by any further history of calls. *)
Theorem C09_representation_independent {HI HI' : heaps} {F R : ordT} {K : coeffT} (phi : R -> F)
    (h : bhcol HI F R K) (h' : bhcol HI' F R K) (ops : list (col_op F R K)) :
  (forall e, In e (elems h) -> e_fil e = phi (e_row e)) ->
  (forall e, In e (elems h') -> e_fil e = phi (e_row e)) ->
  (forall r, coef (map e_term (elems h)) r = coef (map e_term (elems h')) r) ->
  (forall op e, In op ops -> In e (op_entries op) -> e_fil e = phi (e_row e)) ->
  exists obs g g', col_run h ops = Ok (obs, g) /\ col_run h' ops = Ok (obs, g') /\
    forall r, coef (map e_term (elems g)) r = coef (map e_term (elems g')) r.
Proof.
  intros Hw Hw' E Hops.
  destruct (@col_run_spec F R K phi HI ops h Hw Hops) as (obs & g & E1 & _ & S1).
  destruct (@col_run_spec F R K phi HI' ops h' Hw' Hops) as (obs' & g' & E2 & _ & S2).
  destruct (@col_spec_run_det F R K phi ops _ _ _ _ _ _ E S1 S2) as [<- Ed].
  exists obs, g, g'. auto.
Qed.

(** what a sequence of additions leaves in the column is, up to the order of the entries,
    exactly the entries given: one by one, in batches, as tuples or as entries *)
Theorem C09_added {HI : heaps} {F R : ordT} {K : coeffT} (ops : list (col_op F R K)) :
  (forall op, In op ops -> op <> PopPivot /\ op <> ClonePivot /\ op <> DrainSorted) ->
  forall h : bhcol HI F R K, exists obs h', col_run h ops = Ok (obs, h') /\
    Permutation (elems h') (flat_map op_entries ops ++ elems h).
Proof.
  induction ops as [|op ops IH]; intros Hops h; simpl; [eauto|].
  assert (Ha : match op with AddEntry _ | AddEntries _ | AddTuple _ | AddTuples _ => True | _ => False end).
  { destruct (Hops op (or_introl eq_refl)) as (A & B & D). destruct op; try tauto; congruence. }
  rewrite (op_entries_add h op Ha). cbn [bind].
  destruct (IH (fun op H => Hops op (or_intror H)) (add_entries h (op_entries op))) as (obs & h' & -> & Hp).
  cbn [bind]. do 2 eexists. split; [reflexivity|]. rewrite Hp, elems_add_entries.
  rewrite !app_assoc. apply Permutation_app_tail. apply Permutation_app_comm.
Qed.

(** C10.  The order on entries. *)
Theorem C10_entry_order {F R : ordT} {C : Type} (a b : entry F R C) :
  (entry_cmp a b = Lt <-> olt (e_fil a) (e_fil b) \/ (e_fil a = e_fil b /\ olt (e_row a) (e_row b))) /\
  (entry_cmp a b = Eq <-> e_fil a = e_fil b /\ e_row a = e_row b) /\
  (entry_cmp a b = Gt <-> entry_cmp b a = Lt) /\
  entry_cmp a a = Eq /\
  (forall c, entry_cmp a b <> Gt -> entry_cmp b c <> Gt -> entry_cmp a c <> Gt).
Proof.
  assert (HE : entry_cmp a b = Eq <-> e_fil a = e_fil b /\ e_row a = e_row b).
  { unfold entry_cmp. rewrite lex_cmp_eq. split; [intros [= -> ->]; auto|intros [-> ->]; auto]. }
  split; [|split; [exact HE|split; [|split]]].
  - unfold entry_cmp, lex_cmp, olt. simpl. destruct (cmp (e_fil a) (e_fil b)) eqn:E.
    + apply cmp_eq in E. split; auto. intros [H|[_ H]]; [discriminate|auto].
    + tauto.
    + split; [discriminate|]. intros [H|[H _]]; [discriminate|].
      rewrite H, cmp_refl in E. discriminate.
  - rewrite (entry_cmp_opp b a). destruct (entry_cmp b a); simpl; split; auto; discriminate.
  - unfold entry_cmp. now rewrite lex_cmp_eq.
  - intros c. apply entry_cmp_trans.
Qed.
(** for entries of one filtered matrix, comparison agrees with [==] and with the row order *)
Theorem C10_eq_compatible {F R : ordT} {C : Type} (phi : R -> F) (a b : entry F R C) :
  e_fil a = phi (e_row a) -> e_fil b = phi (e_row b) ->
  (entry_cmp a b = Eq <-> entry_eqb a b = true) /\ (entry_eqb a b = true <-> e_row a = e_row b) /\
  (entry_cmp a b = Lt <-> row_lt phi (e_row a) (e_row b)).
Proof.
  intros Ha Hb. assert (HE : entry_eqb a b = true <-> e_row a = e_row b).
  { unfold entry_eqb. apply oeqb_eq. }
  split; [|split; auto].
  - rewrite HE. destruct (C10_entry_order a b) as (_ & -> & _). split; [tauto|].
    intros E. split; auto. rewrite Ha, Hb. congruence.
  - destruct (C10_entry_order a b) as (-> & _). unfold row_lt. now rewrite Ha, Hb.
Qed.
(** outside that regime the two disagree *)
Theorem C10_incoherent_disagree :
  exists a b : entry nat_ord nat_ord Z2_coeff, entry_eqb a b = true /\ entry_cmp a b <> Eq.
Proof. exists (@Entry nat_ord nat_ord Z2_coeff 0 1 Z2), (@Entry nat_ord nat_ord Z2_coeff 1 1 Z2). split; [reflexivity|discriminate]. Qed.
Theorem C10_scale {F R : ordT} {K : coeffT} (e : entry F R K) (m : K) :
  e_fil (entry_scale e m) = e_fil e /\ e_row (entry_scale e m) = e_row e /\
  Some (e_coeff (entry_scale e m)) = fmul (Some (e_coeff e)) (Some m).
Proof. repeat split. Qed.

(* ------------------------------------------------------------------ *)
(** ** Non-vacuity: a column over Z3 with repeated rows and a cancellation at the top row.
    Rows 0..4 have filtration value row/2, entries are pushed out of order. *)
Definition cx (c r : nat) : entry nat_ord nat_ord Z3_coeff := Entry (r / 2) r (@zp_mk 3 prime3 (Z.of_nat c)).
Definition cx_ops : list (col_op nat_ord nat_ord Z3_coeff) :=
  [AddEntries [cx 1 4; cx 2 1; cx 1 3]; AddEntry (cx 2 4); @AddTuple nat_ord nat_ord Z3_coeff (@zp_mk 3 prime3 1, 3, 1);
   ClonePivot; PopPivot; DrainSorted; PopPivot].
Example C09_ex_hyp : forall op e, In op cx_ops -> In e (op_entries op) -> e_fil e = (fun r : nat => r / 2) (e_row e).
Proof.
  intros op e Hop He. simpl in Hop. repeat (destruct Hop as [<-|Hop]; [simpl in He; repeat (destruct He as [<-|He]; [reflexivity|]); destruct He|]). destruct Hop.
Qed.
Example C06_C09_ex : match col_run (empty_bhcol list_heaps nat_ord nat_ord Z3_coeff) cx_ops with
  | Ok (obs, h) => obs = [ObsNone; ObsNone; ObsNone; ObsPivot (Some (cx 2 3)); ObsPivot (Some (cx 2 3)); ObsList [cx 2 1]; ObsPivot None]
                   /\ elems h = []
  | _ => False end.
Proof. vm_compute. repeat split. Qed.

(** C07, C08: the same column, drained and cloned: rows 4 and 3 cancel, row 1 has coefficient 2 + 2 = 1 *)
Definition cx_entries : list (entry nat_ord nat_ord Z3_coeff) := [cx 1 4; cx 2 1; cx 1 3; cx 2 4; cx 2 3; cx 2 1; cx 1 0].
Example C07_C08_ex : let h := add_entries (empty_bhcol list_heaps nat_ord nat_ord Z3_coeff) cx_entries in
  (forall e, In e (elems h) -> e_fil e = (fun r : nat => r / 2) (e_row e)) /\
  to_sorted_vec h = Ok [cx 1 1; cx 1 0] /\
  match clone_pivot h with Ok (o, h') => o = Some (cx 1 1) /\ peek_pivot h' = o | _ => False end.
Proof.
  cbv zeta. split; [|split; [vm_compute; reflexivity|vm_compute; split; reflexivity]].
  intros e He. vm_compute in He. repeat (destruct He as [<-|He]; [reflexivity|]). destruct He.
Qed.
Example C10_ex : let a := cx 1 2 in let b := cx 2 3 in let c := cx 2 2 in
  entry_cmp a b = Lt /\ entry_cmp a c = Eq /\ entry_eqb a c = true /\ a <> c /\ e_fil a = e_fil b.
Proof. vm_compute. repeat split. discriminate. Qed.

Print Assumptions C06_pop_pivot.
Print Assumptions C07_drain_sorted.
Print Assumptions C08_clone_pivot.
Print Assumptions C09_history.
Print Assumptions C09_representation_independent.
Print Assumptions C09_added.
Print Assumptions C10_eq_compatible.
