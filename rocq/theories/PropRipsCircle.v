(** Property theorems C73: what the program prints is the barcode of the Vietoris-Rips filtration, whoever computed that barcode; and for the
    input of the README's example, points equally spaced on a circle, the barcode is this. *)
From Verif Require Import Base Fields FieldsFacts Spec LinAlg Columns ColumnsFacts Matrices Reduction Rips SpecRips SpecPath RipsCode RipsFacts RipsBasis RipsComplex PropRips RipsCohomology PropRipsCohomology SpecPH Persistence BettiUnique RipsPersistence PropRipsPersistence PropRipsCli BettiMaps BarsUnique RipsSwap PropRipsOrder PropRipsComponents RipsCircle PropGrpphExamples.
From Coq Require Import Permutation Sorted Lia Arith.
Set Implicit Arguments.

(** A list of bars (degree, (birth, death)) is a barcode of the Vietoris-Rips filtration of [d] over the field [K] in the degrees up to
    [m] when in each of those degrees the bars born by [s] and alive after [t], with the one bar of degree 0 that never dies, are as many
    as the persistent Betti number says.  [of_degree q] keeps the births and deaths of degree [q]. *)
Definition of_degree {F : ordT} (q : nat) (bars : list (nat * (F * F))) : list (F * F) := map snd (filter (fun p => fst p =? q) bars).
Definition rips_barcode (K : coeffT) {F : ordT} (z : F) (d : list (list F)) (m : nat) (bars : list (nat * (F * F))) : Prop :=
  (forall q b e, In (q, (b, e)) bars -> q <= m /\ olt b e) /\
  forall (phi : N_ord -> F) (D : N_ord -> vec K N_ord) (dim : N_ord -> Z) (k : nat) (l : list N_ord),
    rips_filtration z d phi -> rips_boundary_matrix (length d) D -> simplex_dim (length d) dim -> m + 2 <= k -> lists_simplices (length d) k l ->
    forall q s t, q <= m -> ole s t ->
      persistent_betti phi dim (-1) l D (Z.of_nat q) s t
        (bars_alive s t (if (q =? 0) && negb (length d =? 0) then [z] else []) (of_degree q bars)).

Theorem C73_program_prints_barcode :
  forall (HI : heaps) (F : ordT) (uw : N) (z : F) (sub : F -> F -> F) (eps : F) (d : list (list F)) (max_dim : nat),
  rips_matrix z d -> 1 <= max_dim -> codes_fit uw (length d) (max_dim + 2) -> (forall x, ~ olt eps (sub x x)) ->
  forall (L : list N) (fuel : nat), covers_simplices (length d) (max_dim + 2) L -> length L < fuel ->
  forall (bars : list (nat * (F * F))), rips_barcode Z2_coeff z d max_dim bars ->
  exists (printed : list (bar_line F)),
    rips_main HI fuel uw z sub eps d max_dim =
      Ok (map (fun k => binomial (length d) (k + 1)) (seq 0 (max_dim + 1)),
          (if length d =? 0 then [] else [(0, code (length d) [0], z)]), printed) /\
    Permutation (map (fun line => (fst (fst line), snd line)) printed)
                (filter (fun bar => oltb eps (sub (snd (snd bar)) (fst (snd bar)))) bars).
Proof.
  intros HI F uw z sub eps d m Hd Hm Hfit Heps L fuel HL Hf want [Hw1 Hw2].
  destruct (@C64_rips_program HI F uw z sub eps d m Hd Hm Hfit L fuel HL Hf) as (ess & bars & E1 & Ess & _ & Hsh & H1). subst ess.
  eexists. split; [exact E1|]. clear E1.
  pose (f := fun line : bar_line F => (fst (fst line), snd line)). fold f.
  pose (keep := fun p : nat * (F * F) => oltb eps (sub (snd (snd p)) (fst (snd p)))). fold keep.
  assert (Hmf : forall A B (f : A -> B) p L, filter p (map f L) = map f (filter (fun x => p (f x)) L)).
  { intros A B f0 p L'. induction L' as [|a L' IH]; auto. cbn [map filter]. destruct (p (f0 a)); cbn [map]; congruence. }
  assert (Hff : forall A (f p : A -> bool) L, filter p (filter f L) = filter (fun x => f x && p x) L).
  { intros A f0 p L'. induction L' as [|a L' IH]; auto. cbn [filter]. destruct (f0 a); cbn [filter andb]; [destruct (p a)|]; congruence. }
  assert (HP : Permutation (filter (fun p => proper (snd p)) (map f bars)) want).
  { apply (@perm_slices _ fst (m + 1)).
    - intros x Hx. apply filter_In in Hx. destruct Hx as [Hx _]. apply in_map_iff in Hx. destruct Hx as ([[k [b e]] [fb fe]] & <- & Hin). apply Hsh in Hin. cbn [fst f]. lia.
    - intros [q [b e]] Hx. apply Hw1 in Hx. cbn [fst]. lia.
    - intros q Hq.
      assert (Hsl : filter (fun x => fst x =? q) (filter (fun p => proper (snd p)) (map f bars)) =
        map (pair q) (filter proper (map snd (filter (fun line : bar_line F => fst (fst line) =? q) bars)))).
      { clear. induction bars as [|[[k [b e]] [fb fe]] B IH]; auto. cbn [map filter fst snd]. change (f (k, (b, e), (fb, fe))) with (k, (fb, fe)). cbn [fst snd]. destruct (proper (fb, fe)) eqn:Ep; cbn [filter fst].
        - destruct (Nat.eqb_spec k q) as [->|]; [cbn [map filter snd]; rewrite Ep; cbn [map]; f_equal; exact IH|exact IH].
        - destruct (Nat.eqb_spec k q) as [->|]; [cbn [map filter snd]; rewrite Ep; exact IH|exact IH]. }
      assert (Hsw : filter (fun x => fst x =? q) want = map (pair q) (of_degree q want)).
      { clear. induction want as [|[k p] W IH]; auto. unfold of_degree in *. cbn [filter fst]. destruct (Nat.eqb_spec k q) as [->|]; [cbn [map snd]; f_equal; exact IH|exact IH]. }
      rewrite Hsl, Hsw. apply Permutation_map.
      destruct (@spec_exists Z2_coeff F z d Hd) as (Hphi & HD & Hdim & Hls). specialize (Hls (length d + m + 2) ltac:(lia)).
      specialize (H1 _ _ _ (length d + m + 2) (every z d) Hphi HD Hdim ltac:(lia) Hls q).
      specialize (Hw2 _ _ _ (length d + m + 2) (every z d) Hphi HD Hdim ltac:(lia) Hls q).
      eapply bars_determined.
      + intros b e Hin. apply filter_In in Hin. destruct Hin as [_ Hin]. unfold proper in Hin. cbn [fst snd] in Hin. destruct (oltb_spec b e); [auto|discriminate].
      + intros b e Hin. unfold of_degree in Hin. apply in_map_iff in Hin. destruct Hin as ([q' p'] & Ep & Hin). cbn [snd] in Ep. subst p'. apply filter_In in Hin. destruct Hin as [Hin _]. apply (Hw1 _ _ _ Hin).
      + intros s t Hst. rewrite !bars_alive_proper by auto. symmetry. apply (H1 s t); [lia|]. exact (Hw2 s t ltac:(lia) Hst). }
  assert (Hk : map f (filter (fun line => oltb eps (sub (snd (snd line)) (fst (snd line)))) bars) = filter keep (filter (fun p => proper (snd p)) (map f bars))).
  { rewrite Hff, Hmf. f_equal. apply filter_ext_in. intros [[k [b e]] [fb fe]] Hin. unfold keep, f, proper. cbn [fst snd].
    apply Hsh in Hin. destruct Hin as (_ & s & t & _ & _ & _ & _ & _ & _ & _ & _ & Hin). apply ole_lt_eq in Hin. destruct (oltb_spec eps (sub fe fb)) as [H|H]; [|now rewrite andb_false_r].
    destruct (oltb_spec fb fe) as [|Hno]; auto. exfalso. destruct Hin as [Hin|Hin]; [auto|]. subst fe. exact (Heps _ H). }
  rewrite Hk. clear - HP. induction HP as [|x l l' H IH|x y l|l l' l'' H IH H' IH']; auto; cbn [filter]; [destruct (keep x); auto|destruct (keep x), (keep y); auto; constructor|etransitivity; eauto].
Qed.
Print Assumptions C73_program_prints_barcode.

(** ** The circle *)
Definition circle_bars {F : ordT} (iota : nat -> F) (n : nat) : list (nat * (F * F)) :=
  repeat (0, (iota 0, iota 1)) (n - 1) ++ (if n <=? 3 then [] else [(1, (iota 1, iota ((n + 2) / 3)))]).

Lemma number_const n : 1 <= n -> number_of_labels (fun _ => 0) n = 1.
Proof.
  intros Hn. unfold number_of_labels. assert (H : nodup Nat.eq_dec (map (fun _ : nat => 0) (seq 0 n)) = [0]); [|now rewrite H].
  destruct n as [|n]; [lia|]. clear. generalize 0 at 2. induction n as [|n IH]; intros a; [reflexivity|]. cbn [seq map nodup]. specialize (IH (Datatypes.S a)). cbn [seq map] in IH.
  destruct (in_dec Nat.eq_dec 0 _) as [_|H]; [exact IH|]. exfalso. apply H. now left.
Qed.
Lemma binomial_1 n : binomial n 1 = n.
Proof. induction n as [|n IH]; auto. cbn [binomial]. rewrite IH. destruct n; reflexivity. Qed.
Lemma number_id n : number_of_labels (fun v => v) n = n.
Proof. unfold number_of_labels. rewrite map_id, nodup_fixed_point by apply seq_NoDup. apply seq_length. Qed.

Section Bars.
  Context {F : ordT} (iota : nat -> F) (n : nat).
  Hypothesis Hmono : forall a b, a < b -> olt (iota a) (iota b).
  Hypothesis Hn : 1 <= n.
  Notation d := (circle_matrix iota n).
  Lemma jtrans t a b c : joined (iota 0) d t a b -> joined (iota 0) d t b c -> joined (iota 0) d t a c.
  Proof. intros H1 H2. revert a H1. induction H2 as [|x y w Ha IHa Hb Hc Hd]; intros a H1; auto. apply (@joined_step _ _ _ _ _ y w); auto. Qed.
  Lemma circle_joined t i : ole (iota 1) t -> i < n -> joined (iota 0) d t 0 i.
  Proof.
    intros Ht. induction i as [|i IH]; intros Hi; [constructor|]. eapply joined_step; [apply IH; lia| | |]; try (rewrite circle_length; lia).
    rewrite circle_dist by lia. rewrite circ_lt by lia. destruct (Nat.ltb_spec i (Datatypes.S i)); [|lia]. eapply ole_trans; [|exact Ht]. apply (iota_le iota Hmono Hn). lia.
  Qed.
  Lemma circle_labels t : labels_components (iota 0) d t (if oleb (iota 1) t then fun _ => 0 else fun v => v).
  Proof.
    intros i j. rewrite circle_length. intros Hi Hj. destruct (oleb_spec (iota 1) t) as [H|H].
    - split; auto. intros _.
      assert (Hs : forall i, i < n -> joined (iota 0) d t i 0).
      { clear i j Hi Hj. induction i as [|i IH]; intros Hi; [constructor|]. assert (IH' := IH ltac:(lia)). clear IH.
        eapply jtrans; [|exact IH']. eapply joined_step; [constructor| | |]; try (rewrite circle_length; lia).
        rewrite circle_dist by lia. rewrite circ_lt by lia. destruct (Nat.ltb_spec (Datatypes.S i) i); [lia|]. destruct (Nat.ltb_spec i (Datatypes.S i)); [|exfalso; lia]. eapply ole_trans; [|exact H]. apply (iota_le iota Hmono Hn). lia. }
      pose proof (Hs i Hi) as H1. pose proof (circle_joined H Hj) as H2. exact (jtrans H1 H2).
    - split; [intros ->; constructor|]. induction 1 as [|i j k H1 IH Hj' Hk Hd]; auto. rewrite circle_length in Hj', Hk. rewrite IH by auto.
      rewrite circle_dist in Hd by auto. destruct (Nat.eq_dec j k) as [|Hne]; auto. exfalso. apply H. eapply ole_trans; [|exact Hd]. apply (iota_le iota Hmono Hn).
      rewrite circ_lt by auto. destruct (Nat.ltb_spec j k); [lia|]. destruct (Nat.ltb_spec k j); lia.
  Qed.
  Lemma of_degree_app q (a b : list (nat * (F * F))) : of_degree q (a ++ b) = of_degree q a ++ of_degree q b.
  Proof. unfold of_degree. now rewrite filter_app, map_app. Qed.
  Lemma of_degree_repeat q k x m : of_degree q (repeat (k, x) m) = if k =? q then repeat (x : F * F) m else [].
  Proof.
    unfold of_degree. induction m as [|m IH]; [now destruct (k =? q)|]. cbn [repeat filter fst]. destruct (k =? q); [cbn [map snd]; now rewrite IH|exact IH].
  Qed.
  Lemma circle_barcode K : rips_barcode K (iota 0) d 1 (circle_bars iota n).
  Proof.
    split.
    - intros q b e Hin. unfold circle_bars in Hin. apply in_app_iff in Hin. destruct Hin as [Hin|Hin].
      + apply repeat_spec in Hin. injection Hin as -> -> ->. split; auto.
      + destruct (Nat.leb_spec n 3); [destruct Hin|]. destruct Hin as [Hin|[]]. injection Hin as <- <- <-. split; auto. apply Hmono.
        pose proof (@third_spec n Hn 3 (le_n 3)). unfold third in *. change (1 < (n + 2) / 3). lia.
    - rewrite circle_length. intros phi D dim k l Hphi HD Hdim Hk Hl q s t Hq Hst.
      assert (Hcmp : forall m (p : F * F) (g : F * F -> bool), length (filter g (repeat p m)) = if g p then m else 0).
      { intros m p g. induction m as [|m IH]; [now destruct (g p)|]. cbn [repeat filter]. destruct (g p); cbn [length]; now rewrite IH. }
      destruct q as [|[|q]]; [| |lia].
      + destruct (oleb_spec (iota 0) s) as [H0|H0].
        * assert (HB := @components_betti K F (iota 0) d (circle_is_distance_matrix _ Hmono Hn) phi D dim k l Hphi).
          rewrite circle_length in HB. specialize (HB HD Hdim ltac:(lia) Hl s t H0 _ (circle_labels t)).
          replace (bars_alive _ _ _ _) with (number_of_labels (if oleb (iota 1) t then fun _ : nat => 0 else fun v : nat => v) n); [exact HB|].
          unfold circle_bars. rewrite of_degree_app, of_degree_repeat. cbn [Nat.eqb]. replace (of_degree 0 (if n <=? 3 then [] else _)) with (@nil (F * F)) by (now destruct (n <=? 3)). rewrite app_nil_r.
          destruct (Nat.eqb_spec n 0); [lia|]. cbn [andb negb]. unfold bars_alive. rewrite Hcmp. cbn [filter fst snd]. destruct (oleb_spec (iota 0) s); [|contradiction]. cbn [andb length].
          destruct (oltb_spec t (iota 1)) as [Ht|Ht]; destruct (oleb_spec (iota 1) t) as [Ht'|Ht'].
          -- exfalso. apply olt_not_le in Ht. auto.
          -- rewrite number_id. lia.
          -- now rewrite number_const.
          -- exfalso. apply Ht. now apply olt_not_le.
        * assert (Ez : bars_alive s t (if (0 =? 0) && negb (n =? 0) then [iota 0] else []) (of_degree 0 (circle_bars iota n)) = 0).
          { unfold circle_bars. rewrite of_degree_app, of_degree_repeat. cbn [Nat.eqb]. replace (of_degree 0 (if n <=? 3 then [] else _)) with (@nil (F * F)) by (now destruct (n <=? 3)). rewrite app_nil_r.
            destruct (Nat.eqb_spec n 0); [lia|]. cbn [andb negb]. unfold bars_alive. rewrite Hcmp. cbn [filter fst snd]. destruct (oleb_spec (iota 0) s); [contradiction|]. reflexivity. }
          rewrite Ez. exists unit_ord, [], (fun _ _ => f0). split; [|reflexivity]. split; [constructor|]. split; [intros b []|]. split; [|intros a _ b []].
          intros u [Hu _]. exists (fun _ => f0). eapply boundary_ext; [|apply bnd_zero]. intros r. cbv beta.
          destruct (fscalar_dec (u r)) as [E0|Hne]; [rewrite E0; unfold lincomb; cbn; destruct (F_ring K); symmetry; apply Ropp_def|].
          exfalso. destruct (Hu r Hne) as (Hin & Hg & Ht). apply (proj2 Hl) in Hin. destruct Hin as (s0 & Hs0 & _ & ->). apply H0. eapply ole_trans; [|exact Ht].
          pose proof Hphi as Hp. red in Hp. rewrite circle_length in Hp. destruct (Hp s0 Hs0) as [(i & j & Hi & Hj & E) _]. rewrite <- E.
          destruct (circle_is_distance_matrix iota Hmono Hn) as (_ & _ & _ & Hpos). rewrite circle_length in Hpos.
          apply Hpos; apply (proj1 (Forall_forall _ _) (proj2 (proj2 Hs0))); auto.
      + pose proof (@circle_betti1 K F iota n Hmono Hn phi D dim k l Hphi HD Hdim ltac:(lia) Hl s t Hst) as HB.
        replace (bars_alive _ _ _ _) with (if oleb (iota 1) s && oltb t (iota (third n)) then 1 else 0); [exact HB|].
        unfold circle_bars. rewrite of_degree_app, of_degree_repeat. cbn [Nat.eqb andb app]. unfold bars_alive. cbn [filter length Nat.add]. pose proof (@third_spec n Hn 3 (le_n 3)) as H3. destruct (Nat.leb_spec n 3) as [Hle|Hgt].
        * cbn [of_degree filter map length]. destruct (oleb_spec (iota 1) s) as [A|A]; cbn [andb]; auto. destruct (oltb_spec t (iota (third n))) as [B|B]; auto. exfalso.
          apply olt_not_le in B. apply B. eapply ole_trans; [|exact Hst]. eapply ole_trans; [|exact A]. apply (iota_le iota Hmono Hn). lia.
        * unfold of_degree. cbn [filter fst Nat.eqb map snd]. unfold third. destruct (oleb (iota 1) s && oltb t (iota ((n + 2) / 3))); reflexivity.
  Qed.
End Bars.

(** The program on the matrix that circle_distance_matrix.py prints for [n] points, with the default largest dimension 1: sizes [n] and
    n(n-1)/2, one class that never dies, [n - 1] bars from 0 to 1 in dimension 0 and, when n > 3, a single bar in dimension 1, from 1 to
    a third of [n], rounded up. *)
Theorem C73_circle :
  forall (HI : heaps) (F : ordT) (uw : N) (sub : F -> F -> F) (eps : F) (iota : nat -> F) (n : nat),
  (forall a b, a < b -> olt (iota a) (iota b)) -> 1 <= n -> codes_fit uw n 3 ->
  (forall x, ~ olt eps (sub x x)) -> (forall a b, a < b -> olt eps (sub (iota b) (iota a))) ->
  forall (L : list N) (fuel : nat), covers_simplices n 3 L -> length L < fuel ->
  exists (printed : list (bar_line F)),
    rips_main HI fuel uw (iota 0) sub eps (circle_matrix iota n) 1 = Ok ([n; binomial n 2], [(0, code n [0], iota 0)], printed) /\
    Permutation (map (fun line => (fst (fst line), snd line)) printed)
      (repeat (0, (iota 0, iota 1)) (n - 1) ++ (if n <=? 3 then [] else [(1, (iota 1, iota ((n + 2) / 3)))])).
Proof.
  intros HI F uw sub eps iota n Hmono Hn Hfit Heps Hpos L fuel HL Hf.
  pose proof (@C73_program_prints_barcode HI F uw (iota 0) sub eps (circle_matrix iota n) 1 (distance_rips (circle_is_distance_matrix iota Hmono Hn))) as H. rewrite circle_length in H.
  destruct (H ltac:(lia) Hfit Heps L fuel HL Hf _ (circle_barcode iota Hmono Hn Z2_coeff)) as (printed & E & HP). exists printed. split.
  - rewrite E. destruct (Nat.eqb_spec n 0); [lia|]. cbn [seq map Nat.add]. rewrite binomial_1. reflexivity.
  - etransitivity; [exact HP|]. fold (circle_bars iota n). destruct (circle_barcode iota Hmono Hn Z2_coeff) as [Hb _].
    assert (G : forall B : list (nat * (F * F)), (forall x, In x B -> oltb eps (sub (snd (snd x)) (fst (snd x))) = true) -> filter (fun bar => oltb eps (sub (snd (snd bar)) (fst (snd bar)))) B = B).
    { induction B as [|x B IH]; auto. intros HB. cbn [filter]. rewrite (HB x) by (now left). f_equal. apply IH. intros y Hy. apply HB. now right. }
    rewrite G; [reflexivity|]. intros x Hx. unfold circle_bars in Hx. apply in_app_iff in Hx. destruct Hx as [Hx|Hx].
    + apply repeat_spec in Hx. subst x. cbn [fst snd]. destruct (oltb_spec eps (sub (iota 1) (iota 0))) as [|Hno]; [reflexivity|exfalso; apply Hno, Hpos; lia].
    + destruct (Nat.leb_spec n 3) as [|Hgt]; [destruct Hx|]. destruct Hx as [<-|[]]. cbn [fst snd]. pose proof (@third_spec n Hn 3 (le_n 3)). unfold third in *.
      destruct (oltb_spec eps (sub (iota ((n + 2) / 3)) (iota 1))) as [|Hno]; [reflexivity|exfalso; apply Hno, Hpos; lia].
Qed.
Print Assumptions C73_circle.

(** Seven points: times are natural numbers doubled, so that [eps = 1] plays the part of 0.01. *)
Example C73_ex : let iota := fun k : nat => 2 * k : nat_ord in
  (forall a b, a < b -> olt (iota a) (iota b)) /\ (forall x : nat_ord, ~ olt (1 : nat_ord) (x - x)) /\ (forall a b, a < b -> olt (1 : nat_ord) (iota b - iota a)) /\
  codes_fit (2 ^ 64) 7 3 /\ covers_simplices 7 3 (map N.of_nat (seq 0 512)) /\ length (map N.of_nat (seq 0 512)) < 600 /\
  rips_main list_heaps 600 (2 ^ 64) (iota 0) Nat.sub (1 : nat_ord) (circle_matrix iota 7) 1 =
    Ok ([7; 21], [(0, code 7 [0], 0)], [(1, (62%N, 417%N), (2, 6)); (0, (2%N, 17%N), (0, 2)); (0, (3%N, 26%N), (0, 2)); (0, (4%N, 35%N), (0, 2));
      (0, (5%N, 44%N), (0, 2)); (0, (6%N, 53%N), (0, 2)); (0, (7%N, 57%N), (0, 2))]).
Proof.
  cbv zeta. assert (Hlt : forall (a b : nat_ord), a < b <-> olt a b) by (intros a b; unfold olt; cbn [cmp nat_ord]; symmetry; apply Nat.compare_lt_iff).
  split; [intros a b H; apply Hlt; lia|]. split; [intros x H; apply Hlt in H; lia|]. split; [intros a b H; apply Hlt; lia|].
  assert (Hb : forall s, simplex 7 s -> length s <= 3 -> (code 7 s < 512)%N).
  { intros s (Hne & _ & Hb) Hl. pose proof (code_bound Hb) as B.
    assert (((N.of_nat 7 + 1) ^ N.of_nat (length s) <= (N.of_nat 7 + 1) ^ 3)%N) by (apply N.pow_le_mono_r; [discriminate|lia]).
    change ((N.of_nat 7 + 1) ^ 3)%N with 512%N in *. lia. }
  split; [|split; [|split]].
  - intros s Hs Hl. specialize (Hb s Hs Hl). change (2 ^ 64)%N with 18446744073709551616%N. lia.
  - intros s Hs Hl. specialize (Hb s Hs Hl). apply in_map_iff. exists (N.to_nat (code 7 s)). split; [apply N2Nat.id|]. apply in_seq. lia.
  - rewrite map_length, seq_length. apply Nat.ltb_lt. reflexivity.
  - vm_compute. reflexivity.
Qed.
