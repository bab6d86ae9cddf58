(** Property theorems C68: the bars of a Vietoris-Rips filtration do not depend on the order of the points. *)
From Verif Require Import Base Fields FieldsFacts Spec LinAlg Columns ColumnsFacts Matrices Reduction Rips SpecRips SpecPath RipsCode RipsFacts RipsBasis RipsComplex PropRips RipsCohomology PropRipsCohomology SpecPH Persistence BettiUnique RipsPersistence PropRipsPersistence PropRipsCli BettiMaps BarsUnique RipsSwap.
From Coq Require Import Permutation Sorted Lia.
Set Implicit Arguments.

Section Renamed.
  Context {F : ordT} (z : F).
  Lemma filtration_ext (d d' : list (list F)) phi : length d' = length d -> (forall i j, i < length d -> j < length d -> dist z d' i j = dist z d i j) ->
    rips_filtration z d phi -> rips_filtration z d' phi.
  Proof.
    intros Hl Hd H s Hs. rewrite Hl in *. destruct (H s Hs) as [(i & j & Hi & Hj & E) Hm]. assert (Hb : forall x, In x s -> x < length d) by (intros x Hx; exact (proj1 (Forall_forall _ _) (proj2 (proj2 Hs)) x Hx)). split.
    - exists i, j. split; auto. split; auto. rewrite Hd; auto.
    - intros x y Hx Hy. rewrite Hd; auto.
  Qed.
  Context {K : coeffT} (sg : nat -> nat) (d d' : list (list F)) (phi phi' : N_ord -> F) (D : N_ord -> vec K N_ord) (dim : N_ord -> Z) (k : nat) (l : list N_ord).
  Hypothesis Hs : same_points z sg d d'.
  Hypothesis Hphi : rips_filtration z d phi.
  Hypothesis Hphi' : rips_filtration z d' phi'.
  Hypothesis HD : rips_boundary_matrix (length d) D.
  Hypothesis Hdim : simplex_dim (length d) dim.
  Hypothesis Hl : lists_simplices (length d) k l.
  Lemma renamed_betti q s t b : persistent_betti phi dim (-1) l D q s t b -> persistent_betti phi' dim (-1) l D q s t b.
  Proof.
    destruct Hs as (H1 & H2 & H3 & H4). set (n := length d) in *. rewrite <- H1 in HD, Hdim, Hl.
    assert (Hp : Permutation (map sg (seq 0 n)) (seq 0 (length d'))).
    { rewrite H1. apply NoDup_Permutation_bis.
      - apply nodup_map_intro; [apply seq_NoDup|]. intros x y Hx Hy. apply in_seq in Hx, Hy. apply H3; lia.
      - rewrite map_length. auto.
      - intros x Hx. apply in_map_iff in Hx. destruct Hx as (y & <- & Hy). apply in_seq in Hy. apply in_seq. specialize (H2 y). lia. }
    apply (@reorder_betti F z d' K D dim k l q s t b HD Hdim Hl _ _ (proj1 (Permutation_Permutation_transp _ _) Hp) Hp).
    - apply (@filtration_ext d); auto; [rewrite reorder_length, map_length, seq_length; auto|]. intros i j Hi Hj.
      rewrite reorder_dist by (rewrite map_length, seq_length; auto). fold n in Hi, Hj.
      assert (E : forall x, x < n -> nth x (map sg (seq 0 n)) 0 = sg x).
      { intros x Hx. rewrite (nth_indep _ 0 (sg 0)) by (rewrite map_length, seq_length; auto). rewrite map_nth. f_equal. now apply seq_nth. }
      rewrite !E by auto. apply H4; auto.
    - apply (@filtration_ext d'); auto; [rewrite reorder_length, seq_length; auto|]. intros i j Hi Hj. rewrite reorder_dist by now rewrite seq_length. now rewrite !seq_nth by auto.
  Qed.
End Renamed.

(** ** Permutations sliced by a key *)
Lemma perm_slices {A} (key : A -> nat) (N : nat) (l l' : list A) : (forall x, In x l -> key x < N) -> (forall x, In x l' -> key x < N) ->
  (forall q, q < N -> Permutation (filter (fun x => key x =? q) l) (filter (fun x => key x =? q) l')) -> Permutation l l'.
Proof.
  revert l l'. induction N as [|N IH]; intros l l' H H' Hq.
  - destruct l as [|x l]; [|specialize (H x (or_introl eq_refl)); lia]. destruct l' as [|x l']; auto. specialize (H' x (or_introl eq_refl)). lia.
  - assert (P : forall l : list A, Permutation l (filter (fun x => negb (key x =? N)) l ++ filter (fun x => key x =? N) l)).
    { intros m. induction m as [|x m IHl]; auto. cbn [filter]. destruct (key x =? N); cbn [negb app]; [|now constructor].
      etransitivity; [|apply Permutation_middle]. now constructor. }
    assert (Hff : forall (f p : A -> bool) L, filter p (filter f L) = filter (fun x => f x && p x) L).
    { intros f p L'. induction L' as [|a L' IHL]; auto. cbn [filter]. destruct (f a); cbn [filter andb]; [destruct (p a)|]; congruence. }
    rewrite (P l), (P l'). apply Permutation_app; [|apply Hq; lia]. apply IH.
    + intros x Hx. apply filter_In in Hx. destruct Hx as [Hx E]. specialize (H x Hx). destruct (Nat.eqb_spec (key x) N); [discriminate|lia].
    + intros x Hx. apply filter_In in Hx. destruct Hx as [Hx E]. specialize (H' x Hx). destruct (Nat.eqb_spec (key x) N); [discriminate|lia].
    + intros q Hlt. assert (E : forall L, filter (fun x => key x =? q) (filter (fun x => negb (key x =? N)) L) = filter (fun x => key x =? q) L).
      { intros L. rewrite Hff. apply filter_ext. intros x. destruct (Nat.eqb_spec (key x) N) as [E|]; cbn [negb andb]; auto. symmetry. apply Nat.eqb_neq. lia. }
      rewrite !E. apply Hq. lia.
Qed.

(** bars of positive length *)
Definition proper {F : ordT} (p : F * F) : bool := oltb (fst p) (snd p).
Lemma bars_alive_proper {F : ordT} (s t : F) es ps : ole s t -> bars_alive s t es (filter proper ps) = bars_alive s t es ps.
Proof.
  intros Hst. unfold bars_alive. f_equal. induction ps as [|[b e] ps IH]; auto. cbn [filter]. unfold proper at 1. cbn [fst snd].
  destruct (oltb_spec b e) as [H|H]; cbn [filter fst snd].
  - destruct (oleb b s && oltb t e); cbn [length]; auto.
  - rewrite IH. destruct (oleb_spec b s) as [H1|]; cbn [andb]; auto. destruct (oltb_spec t e) as [H2|]; auto. exfalso. apply H.
    eapply ole_lt_trans; [exact H1|]. eapply ole_lt_trans; eauto.
Qed.

(** ** C68, library: for any field *)
Theorem C68_point_order :
  forall (HI HI' : heaps) (K : coeffT) (F : ordT) (uw : N) (z : F) (d d' : list (list F)) (sg : nat -> nat) (max_dim : nat),
  rips_matrix z d -> rips_matrix z d' -> same_points z sg d d' -> 1 <= max_dim -> codes_fit uw (length d) (max_dim + 2) ->
  forall (L : list N) (fuel fuel' : nat), covers_simplices (length d) (max_dim + 2) L -> length L < fuel -> length L < fuel' ->
  exists rc dg rc' dg',
    rips_cohomology HI (K:=K) fuel uw z d max_dim = Ok (rc, dg) /\
    rips_cohomology HI' (K:=K) fuel' uw z d' max_dim = Ok (rc', dg') /\
    forall (phi phi' : N_ord -> F) (dim : N_ord -> Z), rips_filtration z d phi -> rips_filtration z d' phi' -> simplex_dim (length d) dim ->
    let births f (g : diagram (rev_ord rips_index)) q := map (fun c => f (unrev c)) (filter (fun c => (dim (unrev c) =? q)%Z) (essential g)) in
    let bars f (g : diagram (rev_ord rips_index)) q := filter proper
      (map (fun p => (f (unrev (snd p)), f (unrev (fst p)))) (filter (fun p => (dim (unrev (snd p)) =? q)%Z) (pairings g))) in
    forall q, (q <= Z.of_nat max_dim)%Z ->
      Permutation (births phi dg q) (births phi' dg' q) /\ Permutation (bars phi dg q) (bars phi' dg' q).
Proof.
  intros HI HI' K F uw z d d' sg m Hd Hd' Hs Hm Hfit L fuel fuel' HL Hf Hf'. pose proof (proj1 Hs) as El.
  destruct (@C54_rips_bars_count HI K F uw z d m Hd Hm Hfit L fuel HL Hf) as (rc & dg & E1 & H1).
  pose proof Hfit as Hfit'. pose proof HL as HL'. rewrite <- El in Hfit', HL'.
  destruct (@C54_rips_bars_count HI' K F uw z d' m Hd' Hm Hfit' L fuel' HL' Hf') as (rc' & dg' & E2 & H2).
  exists rc, dg, rc', dg'. split; auto. split; auto. intros phi phi' dim Hphi Hphi' Hdim births bars q Hq. cbv zeta in H1, H2.
  destruct (@spec_exists K F z d Hd) as (_ & HD & _ & Hls).
  remember (length d + m + 2) as kk eqn:Hkk. specialize (Hls kk ltac:(lia)).
  specialize (H1 phi (spec_boundary z d) dim kk (every z d) Hphi HD Hdim ltac:(lia) Hls q).
  pose proof HD as HD2. pose proof Hdim as Hdim2. pose proof Hls as Hls2. rewrite <- El in HD2, Hdim2, Hls2.
  specialize (H2 phi' (spec_boundary z d) dim kk (every z d) Hphi' HD2 Hdim2 ltac:(lia) Hls2 q).
  assert (Hal : forall (f : N_ord -> F) (g : diagram (rev_ord rips_index)) s t, ole s t ->
    bars_alive s t (births f g q) (bars f g q) = length (alive f dim (map unrev (essential g)) (map (fun p => (unrev (snd p), unrev (fst p))) (pairings g)) q s t)).
  { intros f g s t Hst. unfold bars. rewrite bars_alive_proper by auto. unfold births, bars_alive, alive. rewrite app_length, map_length.
    assert (Hfm : forall A B (f : A -> B) p L, length (filter p (map f L)) = length (filter (fun x => p (f x)) L)).
    { intros A B f0 p L'. induction L' as [|a L' IH]; auto. cbn [map filter]. destruct (p (f0 a)); cbn [length]; auto. }
    assert (Hff : forall A (f p : A -> bool) L, filter p (filter f L) = filter (fun x => f x && p x) L).
    { intros A f0 p L'. induction L' as [|a L' IH]; auto. cbn [filter]. destruct (f0 a); cbn [filter andb]; [destruct (p a)|]; congruence. }
    rewrite !Hfm, !Hff. f_equal. f_equal. apply filter_ext. intros [a b]. cbn [fst snd]. apply andb_assoc. }
  apply bars_determined.
  - intros b e Hin. apply filter_In in Hin. destruct Hin as [_ Hin]. unfold proper in Hin. cbn [fst snd] in Hin. destruct (oltb_spec b e); [auto|discriminate].
  - intros b e Hin. apply filter_In in Hin. destruct Hin as [_ Hin]. unfold proper in Hin. cbn [fst snd] in Hin. destruct (oltb_spec b e); [auto|discriminate].
  - intros s t Hst. rewrite !Hal by auto. apply (H2 s t _ Hq).
    apply (@renamed_betti F z K sg d d' phi phi' _ dim _ _ Hs Hphi Hphi' HD Hdim Hls). now apply (H1 s t _ Hq).
Qed.
Print Assumptions C68_point_order.

(** ** C68, command line: what is printed for the points in another order has the same sizes and essential classes, and the same bars
    in some order.  The names of the simplices do change. *)
Theorem C68_program_point_order :
  forall (HI HI' : heaps) (F : ordT) (uw : N) (z : F) (sub : F -> F -> F) (eps : F) (d d' : list (list F)) (sg : nat -> nat) (max_dim : nat),
  rips_matrix z d -> rips_matrix z d' -> same_points z sg d d' -> 1 <= max_dim -> codes_fit uw (length d) (max_dim + 2) ->
  (forall x, ~ olt eps (sub x x)) ->
  forall (L : list N) (fuel fuel' : nat), covers_simplices (length d) (max_dim + 2) L -> length L < fuel -> length L < fuel' ->
  exists sizes ess (printed printed' : list (bar_line F)),
    rips_main HI fuel uw z sub eps d max_dim = Ok (sizes, ess, printed) /\
    rips_main HI' fuel' uw z sub eps d' max_dim = Ok (sizes, ess, printed') /\
    Permutation (map (fun line => (fst (fst line), snd line)) printed) (map (fun line => (fst (fst line), snd line)) printed').
Proof.
  intros HI HI' F uw z sub eps d d' sg m Hd Hd' Hs Hm Hfit Heps L fuel fuel' HL Hf Hf'. pose proof (proj1 Hs) as El.
  destruct (@C64_rips_program HI F uw z sub eps d m Hd Hm Hfit L fuel HL Hf) as (ess & bars & E1 & Ess & _ & Hsh & H1).
  pose proof Hfit as Hfit'. pose proof HL as HL'. rewrite <- El in Hfit', HL'.
  destruct (@C64_rips_program HI' F uw z sub eps d' m Hd' Hm Hfit' L fuel' HL' Hf') as (ess' & bars' & E2 & Ess' & _ & Hsh' & H2).
  rewrite El in E2, Ess'. rewrite <- Ess in Ess'. subst ess'.
  do 4 eexists. split; [exact E1|]. split; [exact E2|].
  pose (f := fun line : bar_line F => (fst (fst line), snd line)).
  pose (keep := fun p : nat * (F * F) => oltb eps (sub (snd (snd p)) (fst (snd p)))).
  assert (Hmf : forall A B (f : A -> B) p L, filter p (map f L) = map f (filter (fun x => p (f x)) L)).
  { intros A B f0 p L'. induction L' as [|a L' IH]; auto. cbn [map filter]. destruct (p (f0 a)); cbn [map]; congruence. }
  assert (Hff : forall A (f p : A -> bool) L, filter p (filter f L) = filter (fun x => f x && p x) L).
  { intros A f0 p L'. induction L' as [|a L' IH]; auto. cbn [filter]. destruct (f0 a); cbn [filter andb]; [destruct (p a)|]; congruence. }
  assert (HP : Permutation (filter (fun p => proper (snd p)) (map f bars)) (filter (fun p => proper (snd p)) (map f bars'))).
  { apply (@perm_slices _ fst (m + 1)).
    - intros x Hx. apply filter_In in Hx. destruct Hx as [Hx _]. apply in_map_iff in Hx. destruct Hx as ([[k [b e]] [fb fe]] & <- & Hin). apply Hsh in Hin. cbn [fst f]. lia.
    - intros x Hx. apply filter_In in Hx. destruct Hx as [Hx _]. apply in_map_iff in Hx. destruct Hx as ([[k [b e]] [fb fe]] & <- & Hin). apply Hsh' in Hin. cbn [fst f]. lia.
    - intros q Hq.
      assert (Hsl : forall B, filter (fun x => fst x =? q) (filter (fun p => proper (snd p)) (map f B)) =
        map (pair q) (filter proper (map snd (filter (fun line : bar_line F => fst (fst line) =? q) B)))).
      { intros B. clear. induction B as [|[[k [b e]] [fb fe]] B IH]; auto. cbn [map filter fst snd]. change (f (k, (b, e), (fb, fe))) with (k, (fb, fe)). cbn [fst snd]. destruct (proper (fb, fe)) eqn:Ep; cbn [filter fst].
        - destruct (Nat.eqb_spec k q) as [->|]; [cbn [map filter snd]; rewrite Ep; cbn [map]; f_equal; exact IH|exact IH].
        - destruct (Nat.eqb_spec k q) as [->|]; [cbn [map filter snd]; rewrite Ep; exact IH|exact IH]. }
      rewrite !Hsl. apply Permutation_map.
      destruct (@spec_exists Z2_coeff F z d Hd) as (Hphi & HD & Hdim & Hls). specialize (Hls (length d + m + 2) ltac:(lia)).
      destruct (@spec_exists Z2_coeff F z d' Hd') as (Hphi' & _).
      specialize (H1 _ _ _ (length d + m + 2) (every z d) Hphi HD Hdim ltac:(lia) Hls q). rewrite El in H2.
      specialize (H2 _ _ _ (length d + m + 2) (every z d) Hphi' HD Hdim ltac:(lia) Hls q).
      eapply bars_determined.
      + intros b e Hin. apply filter_In in Hin. destruct Hin as [_ Hin]. unfold proper in Hin. cbn [fst snd] in Hin. destruct (oltb_spec b e); [auto|discriminate].
      + intros b e Hin. apply filter_In in Hin. destruct Hin as [_ Hin]. unfold proper in Hin. cbn [fst snd] in Hin. destruct (oltb_spec b e); [auto|discriminate].
      + intros s t Hst. rewrite !bars_alive_proper by auto. apply (H2 s t); [lia|].
        apply (@renamed_betti F z Z2_coeff sg d d' _ _ _ _ _ _ Hs Hphi Hphi' HD Hdim Hls). apply H1; [lia|reflexivity]. }
  assert (Hk : forall (B : list (bar_line F)), (forall k b e fb fe, In (k, (b, e), (fb, fe)) B -> ole fb fe) ->
    map f (filter (fun line => oltb eps (sub (snd (snd line)) (fst (snd line)))) B) = filter keep (filter (fun p => proper (snd p)) (map f B))).
  { intros B HB. rewrite Hff, Hmf. f_equal. apply filter_ext_in. intros [[k [b e]] [fb fe]] Hin. unfold keep, f, proper. cbn [fst snd].
    apply HB in Hin. apply ole_lt_eq in Hin. destruct (oltb_spec eps (sub fe fb)) as [H|H]; [|now rewrite andb_false_r].
    destruct (oltb_spec fb fe) as [|Hno]; auto. exfalso. destruct Hin as [Hin|Hin]; [auto|]. subst fe. exact (Heps _ H). }
  fold f. rewrite !Hk.
  - clear - HP. induction HP as [|x l l' H IH|x y l|l l' l'' H IH H' IH']; auto; cbn [filter]; [destruct (keep x); auto|destruct (keep x), (keep y); auto; constructor|etransitivity; eauto].
  - intros k b e fb fe Hin. apply Hsh' in Hin. destruct Hin as (_ & s & t & Hin). tauto.
  - intros k b e fb fe Hin. apply Hsh in Hin. destruct Hin as (_ & s & t & Hin). tauto.
Qed.
Print Assumptions C68_program_point_order.

(** The points 0, 1, 3, 7 of the line in the order 3, 0, 7, 1: the hypotheses of both theorems hold, and the bars are those of C64_ex, found at other simplices. *)
Definition line4' : list (list nat_ord) := [[0; 3; 4; 2]; [3; 0; 7; 1]; [4; 7; 0; 6]; [2; 1; 6; 0]].
Example C68_ex :
  let sg := fun v => match v with 0 => 1 | 1 => 3 | 2 => 0 | _ => 2 end in
  distance_matrix (0 : nat_ord) line4' /\ same_points (0 : nat_ord) sg line4 line4' /\ (forall x : nat_ord, ~ olt (1 : nat_ord) (x - x)) /\
  rips_main list_heaps 700 (2 ^ 64) (0 : nat_ord) Nat.sub (1 : nat_ord) line4' 1 =
    Ok ([4; 6], [(0, 1%N, 0)], [(0, (2%N, 21%N), (0, 2)); (0, (3%N, 16%N), (0, 4))]).
Proof.
  cbv zeta. assert (Hle : forall (a b : nat_ord), a <= b -> ole a b) by (intros a b H; unfold ole; cbn [cmp nat_ord]; now apply Nat.compare_le_iff).
  split; [|split; [|split]].
  - split; [intros row H; simpl in H; repeat (destruct H as [<-|H]; [reflexivity|]); destruct H|]. change (length line4') with 4. split; [|split].
    + intros i j Hi Hj. do 4 (destruct i as [|i]; [do 4 (destruct j as [|j]; [reflexivity|]); lia|]). lia.
    + intros i Hi. do 4 (destruct i as [|i]; [reflexivity|]). lia.
    + intros i j Hi Hj. apply Hle. apply Nat.le_0_l.
  - split; [reflexivity|]. change (length line4) with 4. split; [|split].
    + intros x Hx. do 4 (destruct x as [|x]; [lia|]). lia.
    + intros x y Hx Hy. do 4 (destruct x as [|x]; [do 4 (destruct y as [|y]; [lia|]); lia|]). lia.
    + intros x y Hx Hy. do 4 (destruct x as [|x]; [do 4 (destruct y as [|y]; [reflexivity|]); lia|]). lia.
  - intros x H. apply olt_not_le in H. apply H, Hle. rewrite Nat.sub_diag. apply Nat.le_0_l.
  - vm_compute. reflexivity.
Qed.
