(** Property theorems C87 and C88: repeating points of a Rips input, and comparing two inputs with different numbers of points. *)
From Verif Require Import Base Fields FieldsFacts Spec LinAlg Columns ColumnsFacts Matrices Reduction Rips SpecRips SpecPath RipsCode RipsFacts RipsBasis RipsComplex PropRips RipsCohomology PropRipsCohomology SpecPH Persistence BettiUnique RipsPersistence PropRipsPersistence PropRipsCli BettiMaps BettiFactor BarsUnique RipsSwap PropRipsOrder RipsRepeat RipsCover Examples.
From Coq Require Import Permutation Sorted Lia.
Set Implicit Arguments.

(** Every point of [d'] is a copy of a point of [d] (point [i] of [d'] of point [sg i] of [d]), and every point of [d] has a copy. *)
Definition repeats_points {F : ordT} (z : F) (sg : nat -> nat) (d d' : list (list F)) : Prop :=
  (forall i, i < length d' -> sg i < length d) /\
  (forall j, j < length d -> exists i, i < length d' /\ sg i = j) /\
  forall i i', i < length d' -> i' < length d' -> dist z d' i i' = dist z d (sg i) (sg i').

(** A correspondence: each point of [d] is related to a point of [d'] and conversely. *)
Definition correspondence (n n' : nat) (R : nat -> nat -> Prop) : Prop :=
  (forall i, i < n -> exists j, j < n' /\ R i j) /\ (forall j, j < n' -> exists i, i < n /\ R i j).

Section Bridge.
  Context {F : ordT} (z : F) (K : coeffT).
  (** a table that agrees with [reorder d p] *)
  Lemma table_betti (d d' : list (list F)) p q s t b : distance_matrix z d -> ole s t -> (forall a, In a p <-> a < length d) -> length d' = length p ->
    (forall x y, x < length p -> y < length p -> dist z d' x y = dist z d (nth x p 0) (nth y p 0)) ->
    rips_betti z K d' q s t b <-> rips_betti z K d q s t b.
  Proof.
    intros Hd Hst Hp El Hdd. rewrite <- (@cover_betti F z K d Hd p q s t b Hst Hp). unfold rips_betti, rips_data. rewrite reorder_length, <- El.
    split; intros (phi & D & dim & l & (H1 & H2) & H3); exists phi, D, dim, l; (split; [split; [|exact H2]|exact H3]).
    - apply (@filtration_ext F z d'); auto; [now rewrite reorder_length, El|]. intros i j Hi Hj. rewrite El in Hi, Hj. rewrite reorder_dist by auto. symmetry. auto.
    - apply (@filtration_ext F z (reorder z d p)); auto; [now rewrite reorder_length, El|]. intros i j Hi Hj. rewrite reorder_length in Hi, Hj. rewrite reorder_dist by auto. auto.
  Qed.
  Lemma repeat_betti (d d' : list (list F)) sg q s t b : distance_matrix z d -> ole s t -> repeats_points z sg d d' ->
    rips_betti z K d' q s t b <-> rips_betti z K d q s t b.
  Proof.
    intros Hd Hst (H1 & H2 & H3). apply (@table_betti d d' (map sg (seq 0 (length d')))); auto.
    - intros a. rewrite in_map_iff. split; [intros (x & <- & Hx); apply in_seq in Hx; apply H1; lia|]. intros Ha. destruct (H2 a Ha) as (i & Hi & <-). exists i. split; auto. apply in_seq. lia.
    - now rewrite map_length, seq_length.
    - rewrite map_length, seq_length. intros x y Hx Hy.
      assert (E : forall x, x < length d' -> nth x (map sg (seq 0 (length d'))) 0 = sg x).
      { intros w Hw. rewrite (nth_indep _ 0 (sg 0)) by (rewrite map_length, seq_length; auto). rewrite map_nth. f_equal. now apply seq_nth. }
      rewrite !E by auto. auto.
  Qed.
End Bridge.

Lemma alive_bars {F : ordT} (dim : N_ord -> Z) (f : N_ord -> F) (g : diagram (rev_ord rips_index)) q s t : ole s t ->
  bars_alive s t (map (fun c => f (unrev c)) (filter (fun c => (dim (unrev c) =? q)%Z) (essential g)))
    (filter proper (map (fun p => (f (unrev (snd p)), f (unrev (fst p)))) (filter (fun p => (dim (unrev (snd p)) =? q)%Z) (pairings g)))) =
  length (alive f dim (map unrev (essential g)) (map (fun p => (unrev (snd p), unrev (fst p))) (pairings g)) q s t).
Proof.
  intros Hst. rewrite bars_alive_proper by auto. unfold bars_alive, alive. rewrite app_length, map_length.
  assert (Hfm : forall A B (f : A -> B) p L, length (filter p (map f L)) = length (filter (fun x => p (f x)) L)).
  { intros A B f0 p L'. induction L' as [|a L' IH]; auto. cbn [map filter]. destruct (p (f0 a)); cbn [length]; auto. }
  assert (Hff : forall A (f p : A -> bool) L, filter p (filter f L) = filter (fun x => f x && p x) L).
  { intros A f0 p L'. induction L' as [|a L' IH]; auto. cbn [filter]. destruct (f0 a); cbn [filter andb]; [destruct (p a)|]; congruence. }
  rewrite !Hfm, !Hff. f_equal. f_equal. apply filter_ext. intros [a b]. cbn [fst snd]. apply andb_assoc.
Qed.
Lemma proper_lt {F : ordT} (L : list (F * F)) b e : In (b, e) (filter proper L) -> olt b e.
Proof. intros Hin. apply filter_In in Hin. destruct Hin as [_ Hin]. unfold proper in Hin. cbn [fst snd] in Hin. destruct (oltb_spec b e); [auto|discriminate]. Qed.

(** ** C87, library: for any field *)
Theorem C87_repeated_points :
  forall (HI HI' : heaps) (K : coeffT) (F : ordT) (uw : N) (z : F) (d d' : list (list F)) (sg : nat -> nat) (max_dim : nat),
  distance_matrix z d -> rips_matrix z d' -> repeats_points z sg d d' -> 1 <= max_dim ->
  codes_fit uw (length d) (max_dim + 2) -> codes_fit uw (length d') (max_dim + 2) ->
  forall (L L' : list N) (fuel fuel' : nat), covers_simplices (length d) (max_dim + 2) L -> covers_simplices (length d') (max_dim + 2) L' ->
  length L < fuel -> length L' < fuel' ->
  exists rc dg rc' dg',
    rips_cohomology HI (K:=K) fuel uw z d max_dim = Ok (rc, dg) /\
    rips_cohomology HI' (K:=K) fuel' uw z d' max_dim = Ok (rc', dg') /\
    forall (phi phi' : N_ord -> F) (dim dim' : N_ord -> Z), rips_filtration z d phi -> rips_filtration z d' phi' ->
    simplex_dim (length d) dim -> simplex_dim (length d') dim' ->
    let births f dm (g : diagram (rev_ord rips_index)) q := map (fun c => f (unrev c)) (filter (fun c => (dm (unrev c) =? q)%Z) (essential g)) in
    let bars f dm (g : diagram (rev_ord rips_index)) q := filter proper
      (map (fun p => (f (unrev (snd p)), f (unrev (fst p)))) (filter (fun p => (dm (unrev (snd p)) =? q)%Z) (pairings g))) in
    forall q, (q <= Z.of_nat max_dim)%Z ->
      Permutation (births phi dim dg q) (births phi' dim' dg' q) /\ Permutation (bars phi dim dg q) (bars phi' dim' dg' q).
Proof.
  intros HI HI' K F uw z d d' sg m Hdm Hd' Hs Hm Hfit Hfit' L L' fuel fuel' HL HL' Hf Hf'. pose proof (distance_rips Hdm) as Hd.
  destruct (@C54_rips_bars_count HI K F uw z d m Hd Hm Hfit L fuel HL Hf) as (rc & dg & E1 & H1).
  destruct (@C54_rips_bars_count HI' K F uw z d' m Hd' Hm Hfit' L' fuel' HL' Hf') as (rc' & dg' & E2 & H2).
  exists rc, dg, rc', dg'. split; auto. split; auto. intros phi phi' dim dim' Hphi Hphi' Hdim Hdim' births bars q Hq. cbv zeta in H1, H2.
  destruct (@spec_exists K F z d Hd) as (_ & HD & _ & Hls). destruct (@spec_exists K F z d' Hd') as (_ & HD' & _ & Hls').
  specialize (Hls (length d + m + 2) ltac:(lia)). specialize (Hls' (length d' + m + 2) ltac:(lia)).
  specialize (H1 phi _ dim (length d + m + 2) _ Hphi HD Hdim ltac:(lia) Hls q). specialize (H2 phi' _ dim' (length d' + m + 2) _ Hphi' HD' Hdim' ltac:(lia) Hls' q).
  apply bars_determined; [intros; eapply proper_lt; eauto|intros; eapply proper_lt; eauto|].
  intros s t Hst. unfold births, bars. rewrite !alive_bars by auto.
  apply (@rips_betti_unique F z K d q s t); auto.
  - eexists _, _, _, _. split; [|apply (H1 s t _ Hq); reflexivity]. split; auto. split; auto. split; auto. exists (length d + m + 2). split; [lia|auto].
  - apply (@repeat_betti F z K d d' sg); auto.
    eexists _, _, _, _. split; [|apply (H2 s t _ Hq); reflexivity]. split; auto. split; auto. split; auto. exists (length d' + m + 2). split; [lia|auto].
Qed.
Print Assumptions C87_repeated_points.

(** ** C87, program: the same bars are printed (at other simplices; the basis sizes differ) *)
Theorem C87_program_repeated_points :
  forall (HI HI' : heaps) (F : ordT) (uw : N) (z : F) (sub : F -> F -> F) (eps : F) (d d' : list (list F)) (sg : nat -> nat) (max_dim : nat),
  distance_matrix z d -> rips_matrix z d' -> repeats_points z sg d d' -> 1 <= max_dim ->
  codes_fit uw (length d) (max_dim + 2) -> codes_fit uw (length d') (max_dim + 2) ->
  (forall x, ~ olt eps (sub x x)) ->
  forall (L L' : list N) (fuel fuel' : nat), covers_simplices (length d) (max_dim + 2) L -> covers_simplices (length d') (max_dim + 2) L' ->
  length L < fuel -> length L' < fuel' ->
  exists sizes sizes' ess ess' (printed printed' : list (bar_line F)),
    rips_main HI fuel uw z sub eps d max_dim = Ok (sizes, ess, printed) /\
    rips_main HI' fuel' uw z sub eps d' max_dim = Ok (sizes', ess', printed') /\
    map (fun line => (fst (fst line), snd line)) ess = map (fun line => (fst (fst line), snd line)) ess' /\
    Permutation (map (fun line => (fst (fst line), snd line)) printed) (map (fun line => (fst (fst line), snd line)) printed').
Proof.
  intros HI HI' F uw z sub eps d d' sg m Hdm Hd' Hs Hm Hfit Hfit' Heps L L' fuel fuel' HL HL' Hf Hf'. pose proof (distance_rips Hdm) as Hd.
  destruct (@C64_rips_program HI F uw z sub eps d m Hd Hm Hfit L fuel HL Hf) as (ess & bars & E1 & Ess & _ & Hsh & H1).
  destruct (@C64_rips_program HI' F uw z sub eps d' m Hd' Hm Hfit' L' fuel' HL' Hf') as (ess' & bars' & E2 & Ess' & _ & Hsh' & H2).
  do 6 eexists. split; [exact E1|]. split; [exact E2|].
  assert (Hess : map (fun line => (fst (fst line), snd line)) ess = map (fun line => (fst (fst line), snd line)) ess').
  { subst ess ess'. destruct Hs as (S1 & S2 & _). destruct (Nat.eqb_spec (length d) 0) as [A|A], (Nat.eqb_spec (length d') 0) as [B|B]; auto.
    - specialize (S1 0). lia.
    - destruct (S2 0 ltac:(lia)) as (i & Hi & _). lia. }
  split; auto.
  pose (f := fun line : bar_line F => (fst (fst line), snd line)).
  pose (keep := fun p : nat * (F * F) => oltb eps (sub (snd (snd p)) (fst (snd p)))).
  assert (Hmf : forall A B (f : A -> B) p L, filter p (map f L) = map f (filter (fun x => p (f x)) L)).
  { intros A B f0 p L0. induction L0 as [|a L0 IH]; auto. cbn [map filter]. destruct (p (f0 a)); cbn [map]; congruence. }
  assert (Hff : forall A (f p : A -> bool) L, filter p (filter f L) = filter (fun x => f x && p x) L).
  { intros A f0 p L0. induction L0 as [|a L0 IH]; auto. cbn [filter]. destruct (f0 a); cbn [filter andb]; [destruct (p a)|]; congruence. }
  assert (HP : Permutation (filter (fun p => proper (snd p)) (map f bars)) (filter (fun p => proper (snd p)) (map f bars'))).
  { apply (@perm_slices _ fst (m + 1)).
    - intros x Hx. apply filter_In in Hx. destruct Hx as [Hx _]. apply in_map_iff in Hx. destruct Hx as ([[k [b e]] [fb fe]] & <- & Hin). apply Hsh in Hin. cbn [fst f]. lia.
    - intros x Hx. apply filter_In in Hx. destruct Hx as [Hx _]. apply in_map_iff in Hx. destruct Hx as ([[k [b e]] [fb fe]] & <- & Hin). apply Hsh' in Hin. cbn [fst f]. lia.
    - intros q Hq.
      assert (Hsl : forall B, filter (fun x => fst x =? q) (filter (fun p => proper (snd p)) (map f B)) =
        map (pair q) (filter proper (map snd (filter (fun line : bar_line F => fst (fst line) =? q) B)))).
      { intros B. clear. induction B as [|[[k [b e]] [fb fe]] B IH]; auto. cbn [map filter fst snd]. change (f (k, (b, e), (fb, fe))) with (k, (fb, fe)). cbn [fst snd]. destruct (proper (fb, fe)) eqn:Ep; cbn [filter fst].
        - destruct (Nat.eqb_spec k q) as [->|]; [cbn [map filter snd]; rewrite Ep; cbn [map]; f_equal; exact IH|exact IH].
        - destruct (Nat.eqb_spec k q) as [->|]; [cbn [map filter snd]; rewrite Ep; exact IH|exact IH]. }
      rewrite !Hsl. apply Permutation_map.
      destruct (@spec_exists Z2_coeff F z d Hd) as (Hphi & HD & Hdim & Hls). specialize (Hls (length d + m + 2) ltac:(lia)).
      destruct (@spec_exists Z2_coeff F z d' Hd') as (Hphi' & HD' & Hdim' & Hls'). specialize (Hls' (length d' + m + 2) ltac:(lia)).
      specialize (H1 _ _ _ (length d + m + 2) _ Hphi HD Hdim ltac:(lia) Hls q).
      specialize (H2 _ _ _ (length d' + m + 2) _ Hphi' HD' Hdim' ltac:(lia) Hls' q).
      apply (@bars_determined F (map snd (filter (fun line : nat * N * F => fst (fst line) =? q) ess)) (map snd (filter (fun line : nat * N * F => fst (fst line) =? q) ess'))); [intros; eapply proper_lt; eauto|intros; eapply proper_lt; eauto|].
      intros s t Hst. rewrite !bars_alive_proper by auto.
      apply (@rips_betti_unique F z Z2_coeff d (Z.of_nat q) s t); auto.
      + eexists _, _, _, _. split; [|apply (H1 s t); [lia|reflexivity]]. split; auto. split; auto. split; auto. exists (length d + m + 2). split; [lia|auto].
      + apply (@repeat_betti F z Z2_coeff d d' sg); auto.
        eexists _, _, _, _. split; [|apply (H2 s t); [lia|reflexivity]]. split; auto. split; auto. split; auto. exists (length d' + m + 2). split; [lia|auto]. }
  assert (Hk : forall (B : list (bar_line F)), (forall k b e fb fe, In (k, (b, e), (fb, fe)) B -> ole fb fe) ->
    map f (filter (fun line => oltb eps (sub (snd (snd line)) (fst (snd line)))) B) = filter keep (filter (fun p => proper (snd p)) (map f B))).
  { intros B HB. rewrite Hff, Hmf. f_equal. apply filter_ext_in. intros [[k [b e]] [fb fe]] Hin. unfold keep, f, proper. cbn [fst snd].
    apply HB in Hin. apply ole_lt_eq in Hin. destruct (oltb_spec eps (sub fe fb)) as [H|H]; [|now rewrite andb_false_r].
    destruct (oltb_spec fb fe) as [|Hno]; auto. exfalso. destruct Hin as [Hin|Hin]; [auto|]. subst fe. exact (Heps _ H). }
  fold f. rewrite !Hk.
  - clear - HP. induction HP as [|x l l' H IH|x y l|l l' l'' H IH H' IH']; auto; cbn [filter]; [destruct (keep x); auto|destruct (keep x), (keep y); auto; constructor|etransitivity; eauto].
  - intros k b e fb fe Hin. apply Hsh' in Hin. destruct Hin as (_ & s & t & Hin). tauto.
  - intros k b e fb fe Hin. apply Hsh in Hin. destruct Hin as (_ & s & t & Hin). tauto.
Qed.
Print Assumptions C87_program_repeated_points.

(** ** C88: inputs related by a correspondence.  If related points at distance at most [s] in [d] are at distance at most [s'] in [d'], and
    related points at distance at most [t'] in [d'] are at distance at most [t] in [d], then no fewer bars of [d'] contain [s', t'] than bars of [d] contain [s, t]. *)
Lemma pairs_exist (R : nat -> nat -> Prop) n' N : (forall i, i < N -> exists j, j < n' /\ R i j) ->
  exists Z : list (nat * nat), (forall i j, In (i, j) Z -> i < N /\ j < n' /\ R i j) /\ forall i, i < N -> In i (map fst Z).
Proof.
  induction N as [|N IH]; intros H; [exists []; split; [intros i j []|lia]|].
  destruct IH as (Z & H1 & H2); [intros i Hi; apply H; lia|]. destruct (H N ltac:(lia)) as (j & Hj & Hr). exists ((N, j) :: Z). split.
  - intros i j' [[= <- <-]|Hin]; [split; auto|]. apply H1 in Hin. destruct Hin as (? & ? & ?). split; auto.
  - intros i Hi. cbn [map fst]. destruct (Nat.eq_dec i N) as [->|]; [now left|]. right. apply H2. lia.
Qed.
Lemma correspondence_pairs n n' R : correspondence n n' R -> exists Z : list (nat * nat), (forall i j, In (i, j) Z -> R i j) /\
  (forall i, In i (map fst Z) <-> i < n) /\ (forall j, In j (map snd Z) <-> j < n').
Proof.
  intros [H1 H2]. destruct (@pairs_exist R n' n H1) as (Z1 & A1 & B1). destruct (@pairs_exist (fun j i => R i j) n n' H2) as (Z2 & A2 & B2).
  pose (sw := fun p : nat * nat => (snd p, fst p)).
  assert (Hsw : forall i j, In (i, j) (map sw Z2) <-> In (j, i) Z2).
  { intros i j. rewrite in_map_iff. split; [intros ([a b] & [= <- <-] & Hin); auto|]. intros Hin. exists (j, i). auto. }
  assert (Hall : forall i j, In (i, j) (Z1 ++ map sw Z2) -> i < n /\ j < n' /\ R i j).
  { intros i j Hin. apply in_app_iff in Hin. destruct Hin as [Hin|Hin]; [auto|]. apply Hsw in Hin. apply A2 in Hin. tauto. }
  exists (Z1 ++ map sw Z2). split; [intros i j Hin; apply Hall, Hin|]. split.
  - intros i. split; [intros Hin; apply in_map_iff in Hin; destruct Hin as ([a b] & <- & Hin); apply Hall in Hin; apply Hin|]. intros Hi. rewrite map_app, in_app_iff. left. auto.
  - intros j. split; [intros Hin; apply in_map_iff in Hin; destruct Hin as ([a b] & <- & Hin); apply Hall in Hin; apply Hin|]. intros Hj. rewrite map_app, in_app_iff. right.
    rewrite map_map. unfold sw. cbn [snd]. auto.
Qed.
Lemma correspondence_betti (K : coeffT) (F F' : ordT) (z : F) (z' : F') (d : list (list F)) (d' : list (list F')) R q s t s' t' b b' :
  distance_matrix z d -> distance_matrix z' d' -> correspondence (length d) (length d') R -> ole s t -> ole s' t' ->
  (forall i j i' j', R i j -> R i' j' -> i < length d -> i' < length d -> j < length d' -> j' < length d' -> ole (dist z d i i') s -> ole (dist z' d' j j') s') ->
  (forall i j i' j', R i j -> R i' j' -> i < length d -> i' < length d -> j < length d' -> j' < length d' -> ole (dist z' d' j j') t' -> ole (dist z d i i') t) ->
  rips_betti z K d q s t b -> rips_betti z' K d' q s' t' b' -> b <= b'.
Proof.
  intros Hd Hd' HR Hst Hst' Hs Ht Hb Hb'. destruct (correspondence_pairs HR) as (Z & A & P1 & P2).
  apply (@cover_betti F z K d Hd _ q s t b Hst P1) in Hb. apply (@cover_betti F' z' K d' Hd' _ q s' t' b' Hst' P2) in Hb'.
  set (e := reorder z d (map fst Z)) in *. set (e' := reorder z' d' (map snd Z)) in *.
  assert (Le : length e = length Z) by (unfold e; now rewrite reorder_length, map_length).
  assert (Le' : length e' = length Z) by (unfold e'; now rewrite reorder_length, map_length).
  assert (He' : rips_matrix z' e') by (apply distance_rips, reorder_distance; [auto|apply P2]).
  destruct Hb as (phi & D & dim & l & Hdata & HB).
  destruct (@spec_exists K F' z' e' He') as (Hphi' & _). set (psi := some_phi z' e' : N_ord -> F') in Hphi'.
  assert (Hdata' : rips_data z' e' psi D dim l).
  { destruct Hdata as (_ & X1 & X2 & X3). rewrite Le in X1, X2, X3. split; auto. rewrite Le'. auto. }
  destruct (rips_betti_exists K q s' t' He') as (b2 & Hb2). assert (b2 = b') by (eapply rips_betti_unique; eauto). subst b2.
  assert (Hnth : forall x, x < length Z -> R (nth x (map fst Z) 0) (nth x (map snd Z) 0) /\ nth x (map fst Z) 0 < length d /\ nth x (map snd Z) 0 < length d').
  { intros x Hx. split; [|split].
    - pose proof (map_nth fst Z (0, 0) x) as E1. pose proof (map_nth snd Z (0, 0) x) as E2. cbn [fst snd] in E1, E2. rewrite E1, E2. apply A. rewrite <- surjective_pairing. now apply nth_In.
    - apply P1, nth_In. now rewrite map_length.
    - apply P2, nth_In. now rewrite map_length. }
  pose proof Hdata as (Hphi & HD & Hdim & k & Hk & Hl).
  assert (HB' : exists b2, persistent_betti psi dim (-1) l D q s' t' b2).
  { destruct Hb' as (phi2 & D2 & dim2 & l2 & Hdata2 & HB2). 
    set (m := S (Z.to_nat q)). set (uw := (1 + fold_right N.max 0 (every z' e'))%N).
    assert (Hfit : codes_fit uw (length e') (m + 2)).
    { intros u Hu _. assert (Hin : In (code (length e') u) (every z' e')) by (apply every_in; eauto). unfold uw. clear - Hin. induction (every z' e') as [|x L IH]; [destruct Hin|]. cbn [fold_right]. destruct Hin as [->|Hin]; [lia|]. specialize (IH Hin). lia. }
    assert (HL : covers_simplices (length e') (m + 2) (every z' e')) by (intros u Hu _; apply every_in; eauto).
    destruct (@C54_rips_bars_count list_heaps K F' uw z' e' m He' ltac:(unfold m; lia) Hfit (every z' e') _ HL (Nat.lt_succ_diag_r _)) as (rc & dg & _ & H).
    cbv zeta in H. destruct Hdata' as (X0 & X1 & X2 & k' & X3 & X4). eexists.
    apply (H _ _ _ (k' + m + 2) l X0 X1 X2); [lia| |unfold m; lia|reflexivity].
    destruct X4 as [X4 X5]. split; auto. intros c. rewrite X5. split; intros (u & U1 & U2 & U3); exists u; split; auto; split; auto; pose proof (simplex_length U1); lia. }
  destruct HB' as (b2 & HB'). assert (b2 = b') by (eapply (@rips_betti_unique F' z' K e'); eauto; exists psi, D, dim, l; auto). subst b2.
  eapply (@interleaved_betti K F F' N_ord phi psi dim (-1)%Z l D q s t s' t'); eauto.
  - intros c Hc Hle. apply Hl in Hc. destruct Hc as (u & Hu & _ & ->). destruct (Hphi u Hu) as [_ Hmax].
    assert (Hb0 : forall x, In x u -> x < length Z) by (intros x Hx; rewrite <- Le; exact (proj1 (Forall_forall _ _) (proj2 (proj2 Hu)) x Hx)).
    assert (Hu' : simplex (length e') u) by (rewrite Le', <- Le; auto). pose proof (Hphi' u Hu') as [(i & j & Hi & Hj & Ed) _]. rewrite Le', <- Le in Ed. rewrite <- Ed.
    unfold e'. rewrite reorder_dist by (rewrite map_length; auto). destruct (Hnth i (Hb0 i Hi)) as (R1 & R2 & R3). destruct (Hnth j (Hb0 j Hj)) as (R4 & R5 & R6).
    eapply Hs; [exact R1|exact R4| | | | |]; auto. eapply ole_trans; [|exact Hle]. specialize (Hmax i j Hi Hj). unfold e in Hmax at 1. rewrite reorder_dist in Hmax by (rewrite map_length; auto). exact Hmax.
  - intros c Hc Hle. apply Hl in Hc. destruct Hc as (u & Hu & _ & ->). destruct (Hphi u Hu) as [(i & j & Hi & Hj & Ed) _].
    assert (Hb0 : forall x, In x u -> x < length Z) by (intros x Hx; rewrite <- Le; exact (proj1 (Forall_forall _ _) (proj2 (proj2 Hu)) x Hx)).
    assert (Hu' : simplex (length e') u) by (rewrite Le', <- Le; auto). pose proof (Hphi' u Hu') as [_ Hmax]. rewrite Le', <- Le in Hmax. rewrite <- Ed.
    unfold e. rewrite reorder_dist by (rewrite map_length; auto). destruct (Hnth i (Hb0 i Hi)) as (R1 & R2 & R3). destruct (Hnth j (Hb0 j Hj)) as (R4 & R5 & R6).
    eapply Ht; [exact R1|exact R4| | | | |]; auto. eapply ole_trans; [|exact Hle]. specialize (Hmax i j Hi Hj). unfold e' in Hmax at 1. rewrite reorder_dist in Hmax by (rewrite map_length; auto). exact Hmax.
Qed.

Theorem C88_correspondence_stability :
  forall (HI HI' : heaps) (K : coeffT) (F F' : ordT) (uw : N) (z : F) (z' : F') (d : list (list F)) (d' : list (list F')) (R : nat -> nat -> Prop) (max_dim : nat),
  distance_matrix z d -> distance_matrix z' d' -> correspondence (length d) (length d') R -> 1 <= max_dim ->
  codes_fit uw (length d) (max_dim + 2) -> codes_fit uw (length d') (max_dim + 2) ->
  forall (L L' : list N) (fuel fuel' : nat), covers_simplices (length d) (max_dim + 2) L -> covers_simplices (length d') (max_dim + 2) L' ->
  length L < fuel -> length L' < fuel' ->
  exists rc dg rc' dg',
    rips_cohomology HI (K:=K) fuel uw z d max_dim = Ok (rc, dg) /\
    rips_cohomology HI' (K:=K) fuel' uw z' d' max_dim = Ok (rc', dg') /\
    let E := map unrev (essential dg) : list N_ord in
    let P := map (fun p => (unrev (snd p), unrev (fst p))) (pairings dg) : list (N_ord * N_ord) in
    let E' := map unrev (essential dg') : list N_ord in
    let P' := map (fun p => (unrev (snd p), unrev (fst p))) (pairings dg') : list (N_ord * N_ord) in
    forall (phi : N_ord -> F) (phi' : N_ord -> F') (dim dim' : N_ord -> Z),
    rips_filtration z d phi -> rips_filtration z' d' phi' -> simplex_dim (length d) dim -> simplex_dim (length d') dim' ->
    forall (q : Z) (s t : F) (s' t' : F'), (q <= Z.of_nat max_dim)%Z -> ole s t -> ole s' t' ->
    (forall i j i' j', R i j -> R i' j' -> i < length d -> i' < length d -> j < length d' -> j' < length d' ->
       ole (dist z d i i') s -> ole (dist z' d' j j') s') ->
    (forall i j i' j', R i j -> R i' j' -> i < length d -> i' < length d -> j < length d' -> j' < length d' ->
       ole (dist z' d' j j') t' -> ole (dist z d i i') t) ->
    length (alive phi dim E P q s t) <= length (alive phi' dim' E' P' q s' t').
Proof.
  intros HI HI' K F F' uw z z' d d' R m Hd Hd' HR Hm Hfit Hfit' L L' fuel fuel' HL HL' Hf Hf'.
  pose proof (distance_rips Hd) as Hrd. pose proof (distance_rips Hd') as Hrd'.
  destruct (@C54_rips_bars_count HI K F uw z d m Hrd Hm Hfit L fuel HL Hf) as (rc & dg & E1 & H1).
  destruct (@C54_rips_bars_count HI' K F' uw z' d' m Hrd' Hm Hfit' L' fuel' HL' Hf') as (rc' & dg' & E2 & H2).
  exists rc, dg, rc', dg'. split; auto. split; auto. intros E P E' P' phi phi' dim dim' Hphi Hphi' Hdim Hdim' q s t s' t' Hq Hst Hst' Hs Ht. cbv zeta in H1, H2.
  destruct (@spec_exists K F z d Hrd) as (_ & HD & _ & Hls). destruct (@spec_exists K F' z' d' Hrd') as (_ & HD' & _ & Hls').
  specialize (Hls (length d + m + 2) ltac:(lia)). specialize (Hls' (length d' + m + 2) ltac:(lia)).
  specialize (H1 phi _ dim (length d + m + 2) _ Hphi HD Hdim ltac:(lia) Hls q s t).
  specialize (H2 phi' _ dim' (length d' + m + 2) _ Hphi' HD' Hdim' ltac:(lia) Hls' q s' t').
  eapply (@correspondence_betti K F F' z z' d d' R q s t s' t'); eauto.
  - eexists _, _, _, _. split; [|apply (H1 _ Hq); reflexivity]. split; auto. split; auto. split; auto. exists (length d + m + 2). split; [lia|auto].
  - eexists _, _, _, _. split; [|apply (H2 _ Hq); reflexivity]. split; auto. split; auto. split; auto. exists (length d' + m + 2). split; [lia|auto].
Qed.
Print Assumptions C88_correspondence_stability.

(** Distances of related points differ by at most [delta], written as a function [shift] that adds [delta]: a class of [d] that is there from [s] to
    [t + delta] is matched in [d'] from [s + delta] to [t]. *)
Corollary C88_distortion :
  forall (HI HI' : heaps) (K : coeffT) (F : ordT) (uw : N) (z : F) (d d' : list (list F)) (R : nat -> nat -> Prop) (shift : F -> F) (max_dim : nat),
  distance_matrix z d -> distance_matrix z d' -> correspondence (length d) (length d') R -> 1 <= max_dim ->
  codes_fit uw (length d) (max_dim + 2) -> codes_fit uw (length d') (max_dim + 2) ->
  (forall x, ole x (shift x)) -> (forall x y, ole x y -> ole (shift x) (shift y)) ->
  (forall i j i' j', R i j -> R i' j' -> i < length d -> i' < length d -> j < length d' -> j' < length d' ->
     ole (dist z d i i') (shift (dist z d' j j')) /\ ole (dist z d' j j') (shift (dist z d i i'))) ->
  forall (L L' : list N) (fuel fuel' : nat), covers_simplices (length d) (max_dim + 2) L -> covers_simplices (length d') (max_dim + 2) L' ->
  length L < fuel -> length L' < fuel' ->
  exists rc dg rc' dg',
    rips_cohomology HI (K:=K) fuel uw z d max_dim = Ok (rc, dg) /\
    rips_cohomology HI' (K:=K) fuel' uw z d' max_dim = Ok (rc', dg') /\
    let E := map unrev (essential dg) : list N_ord in
    let P := map (fun p => (unrev (snd p), unrev (fst p))) (pairings dg) : list (N_ord * N_ord) in
    let E' := map unrev (essential dg') : list N_ord in
    let P' := map (fun p => (unrev (snd p), unrev (fst p))) (pairings dg') : list (N_ord * N_ord) in
    forall (phi phi' : N_ord -> F) (dim dim' : N_ord -> Z),
    rips_filtration z d phi -> rips_filtration z d' phi' -> simplex_dim (length d) dim -> simplex_dim (length d') dim' ->
    forall (q : Z) (s t : F), (q <= Z.of_nat max_dim)%Z -> ole (shift s) t ->
    length (alive phi dim E P q s (shift t)) <= length (alive phi' dim' E' P' q (shift s) t).
Proof.
  intros HI HI' K F uw z d d' R shift m Hd Hd' HR Hm Hfit Hfit' Hup Hmono HRd L L' fuel fuel' HL HL' Hf Hf'.
  destruct (@C88_correspondence_stability HI HI' K F F uw z z d d' R m Hd Hd' HR Hm Hfit Hfit' L L' fuel fuel' HL HL' Hf Hf') as (rc & dg & rc' & dg' & E1 & E2 & H).
  exists rc, dg, rc', dg'. split; auto. split; auto. cbv zeta in *. intros phi phi' dim dim' Hphi Hphi' Hdim Hdim' q s t Hq Hst. apply H; auto.
  - eapply ole_trans; [apply Hup|]. eapply ole_trans; [exact Hst|apply Hup].
  - intros i j i' j' R1 R2 B1 B2 B3 B4 Hle. destruct (HRd i j i' j' R1 R2 B1 B2 B3 B4) as [_ X]. eapply ole_trans; [exact X|auto].
  - intros i j i' j' R1 R2 B1 B2 B3 B4 Hle. destruct (HRd i j i' j' R1 R2 B1 B2 B3 B4) as [X _]. eapply ole_trans; [exact X|auto].
Qed.
Print Assumptions C88_distortion.

(** Points 0, 1, 3, 7 of the line, and the same with the point 1 given twice: the hypotheses of C87 hold; the printed bars are the same, at other simplices. *)
Definition line5r : list (list nat_ord) := [[0; 1; 3; 7; 1]; [1; 0; 2; 6; 0]; [3; 2; 0; 4; 2]; [7; 6; 4; 0; 6]; [1; 0; 2; 6; 0]].
Example C87_ex :
  let sg := fun v => match v with 4 => 1 | v => v end in
  distance_matrix (0 : nat_ord) line4 /\ distance_matrix (0 : nat_ord) line5r /\ repeats_points (0 : nat_ord) sg line4 line5r /\
  rips_main list_heaps 700 (2 ^ 64) (0 : nat_ord) Nat.sub (0 : nat_ord) line4 1 =
    Ok ([4; 6], [(0, 1%N, 0)], [(0, (2%N, 11%N), (0, 1)); (0, (3%N, 17%N), (0, 2)); (0, (4%N, 23%N), (0, 4))]) /\
  exists c1 c2 c3 e1 e2 e3,
  rips_main list_heaps 4000 (2 ^ 64) (0 : nat_ord) Nat.sub (0 : nat_ord) line5r 1 =
    Ok ([5; 10], [(0, 1%N, 0)], [(0, (c1, e1), (0, 1)); (0, (c2, e2), (0, 2)); (0, (c3, e3), (0, 4))]).
Proof.
  cbv zeta. assert (Hle : forall (a b : nat_ord), a <= b -> ole a b) by (intros a b H; unfold ole; cbn [cmp nat_ord]; now apply Nat.compare_le_iff).
  split; [|split; [|split; [|split]]].
  - split; [intros row H; simpl in H; repeat (destruct H as [<-|H]; [reflexivity|]); destruct H|]. change (length line4) with 4. split; [|split].
    + intros i j Hi Hj. do 4 (destruct i as [|i]; [do 4 (destruct j as [|j]; [reflexivity|]); lia|]). lia.
    + intros i Hi. do 4 (destruct i as [|i]; [reflexivity|]). lia.
    + intros i j Hi Hj. apply Hle. apply Nat.le_0_l.
  - split; [intros row H; simpl in H; repeat (destruct H as [<-|H]; [reflexivity|]); destruct H|]. change (length line5r) with 5. split; [|split].
    + intros i j Hi Hj. do 5 (destruct i as [|i]; [do 5 (destruct j as [|j]; [reflexivity|]); lia|]). lia.
    + intros i Hi. do 5 (destruct i as [|i]; [reflexivity|]). lia.
    + intros i j Hi Hj. apply Hle. apply Nat.le_0_l.
  - unfold repeats_points. change (length line4) with 4. change (length line5r) with 5. split; [|split].
    + intros x Hx. do 5 (destruct x as [|x]; [lia|]). lia.
    + intros j Hj. exists j. split; [lia|]. do 4 (destruct j as [|j]; [reflexivity|]). lia.
    + intros x y Hx Hy. do 5 (destruct x as [|x]; [do 5 (destruct y as [|y]; [reflexivity|]); lia|]). lia.
  - vm_compute. reflexivity.
  - do 6 eexists. vm_compute. reflexivity.
Qed.
(** Points 0, 1, 3, 7 and points 0, 3, 7, the first two of the former related to the first of the latter: distances differ by at most 1.  Two of the components
    of the four points last from 0 to 3; of the three points, three components last from 1 to 2. *)
Definition line3 : list (list nat_ord) := [[0; 3; 7]; [3; 0; 4]; [7; 4; 0]].
Example C88_ex :
  let R := fun i j => j = match i with 0 => 0 | S i => i end in
  distance_matrix (0 : nat_ord) line3 /\ correspondence (length line4) (length line3) R /\
  (forall i j i' j', R i j -> R i' j' -> i < 4 -> i' < 4 -> j < 3 -> j' < 3 ->
     ole (dist (0 : nat_ord) line4 i i') (1 + dist (0 : nat_ord) line3 j j' : nat_ord) /\ ole (dist (0 : nat_ord) line3 j j') (1 + dist (0 : nat_ord) line4 i i' : nat_ord)) /\
  (exists sz ess bars, rips_main list_heaps 700 (2 ^ 64) (0 : nat_ord) Nat.sub (0 : nat_ord) line4 1 = Ok (sz, ess, bars) /\
     bars_alive (0 : nat_ord) (3 : nat_ord) (map snd ess) (map snd bars) = 2) /\
  (exists sz ess bars, rips_main list_heaps 700 (2 ^ 64) (0 : nat_ord) Nat.sub (0 : nat_ord) line3 1 = Ok (sz, ess, bars) /\
     bars_alive (1 : nat_ord) (2 : nat_ord) (map snd ess) (map snd bars) = 3).
Proof.
  cbv zeta. assert (Hle : forall (a b : nat_ord), a <= b -> ole a b) by (intros a b H; unfold ole; cbn [cmp nat_ord]; now apply Nat.compare_le_iff).
  split; [|split; [|split; [|split]]].
  - split; [intros row H; simpl in H; repeat (destruct H as [<-|H]; [reflexivity|]); destruct H|]. change (length line3) with 3. split; [|split].
    + intros i j Hi Hj. do 3 (destruct i as [|i]; [do 3 (destruct j as [|j]; [reflexivity|]); lia|]). lia.
    + intros i Hi. do 3 (destruct i as [|i]; [reflexivity|]). lia.
    + intros i j Hi Hj. apply Hle. apply Nat.le_0_l.
  - change (length line4) with 4. change (length line3) with 3. split.
    + intros i Hi. do 4 (destruct i as [|i]; [eexists; split; [|reflexivity]; lia|]). lia.
    + intros j Hj. exists (S j). split; [lia|reflexivity].
  - intros i j i' j' -> -> Hi Hi' _ _. do 4 (destruct i as [|i]; [do 4 (destruct i' as [|i']; [split; apply Hle; cbn; lia|]); lia|]). lia.
  - do 3 eexists. split; vm_compute; reflexivity.
  - do 3 eexists. split; vm_compute; reflexivity.
Qed.
