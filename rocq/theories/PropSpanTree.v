(** C101: the dimension-0 bars of the Rips complex are the edge lengths of a minimum spanning tree (single linkage). *)
From Verif Require Import Base Fields FieldsFacts Spec LinAlg Columns ColumnsFacts Matrices Reduction Rips SpecRips SpecPath RipsCode RipsFacts RipsBasis RipsComplex PropRips RipsCohomology PropRipsCohomology SpecPH Persistence BettiUnique RipsPersistence PropRipsPersistence PropRipsCli BettiMaps BettiFactor BarsUnique RipsSwap PropRipsOrder RipsRepeat RipsCover PropRipsRepeat PropRipsComponents PropRipsCounts PropGrpphStability RipsBars SpecBottleneck Matching PropBottleneck SpanTree Examples.
From Coq Require Import Permutation Sorted Lia.
Set Implicit Arguments.

Section Tree.
  Context {F : ordT} (z : F) (d : list (list F)).
  Hypothesis Hd : distance_matrix z d.
  Let n := length d.
  Let w (e : nat * nat) : F := dist z d (fst e) (snd e).
  Lemma joined_linked E t : (forall a b, In (a, b) E <-> a < n /\ b < n) -> forall i j, joined z d t i j <-> linked (upto w t E) i j.
  Proof.
    intros HE i j. assert (HU : forall a b, In (a, b) (upto w t E) <-> a < n /\ b < n /\ ole (dist z d a b) t).
    { intros a b. unfold upto. rewrite filter_In, HE. unfold w. cbn [fst snd]. destruct (oleb_spec (dist z d a b) t); intuition discriminate. }
    split; induction 1 as [|i j k H IH]; try constructor.
    - eapply linked_step; [exact IH|]. left. apply HU. auto.
    - destruct H0 as [H0|H0]; apply HU in H0; destruct H0 as (A & B & C).
      + eapply joined_step; eauto.
      + eapply joined_step; eauto. destruct Hd as (_ & Hsym & _). rewrite Hsym; auto.
  Qed.
  Lemma distances_bounded : exists t, ole z t /\ forall i j, i < n -> j < n -> ole (dist z d i j) t.
  Proof.
    assert (H : forall L : list (nat * nat), exists t, ole z t /\ forall e, In e L -> ole (w e) t).
    { induction L as [|e L (t & H1 & H2)]; [exists z; split; [apply ole_refl|intros e []]|]. destruct (ole_total (w e) t) as [H|H].
      - exists t. split; auto. intros e' [<-|He]; auto.
      - exists (w e). split; [eapply ole_trans; eauto|]. intros e' [<-|He]; [apply ole_refl|eapply ole_trans; eauto]. }
    destruct (H (list_prod (seq 0 n) (seq 0 n))) as (t & H1 & H2). exists t. split; auto. intros i j Hi Hj. apply (H2 (i, j)). apply in_prod_iff. rewrite !in_seq. lia.
  Qed.
  Lemma lengths_above t T : above t (lengths z d T) + length (upto w t T) = length T.
  Proof. unfold lengths. rewrite <- (map_length w T). rewrite <- (above_length t (map w T)). f_equal. unfold upto. clear. induction T as [|e T IH]; auto. cbn [map filter]. destruct (oleb (w e) t); cbn [length]; auto. Qed.
  (** a spanning tree with, at every level, the components of the points at that distance *)
  Lemma tree_exists : 1 <= n -> exists T, spanning_tree n T /\ forall t label, labels_components z d t label -> number_of_labels label n = 1 + above t (lengths z d T).
  Proof.
    intros Hn. destruct (sort_decreasing w (list_prod (seq 0 n) (seq 0 n))) as (E & PE & DE).
    assert (HE : forall a b, In (a, b) E <-> a < n /\ b < n).
    { intros a b. rewrite <- (Permutation_in' (eq_refl (a, b)) PE), in_prod_iff, !in_seq. lia. }
    destruct (@kruskal F w n E DE ltac:(intros; now apply HE)) as (T & HT & HK).
    assert (Hlab : forall t label, labels_components z d t label -> exists f, kernel f (upto w t E) /\ number_of_labels label n = number_of_labels f n).
    { intros t label Hl. destruct (labels_linked (upto w t E)) as (f & Hf). exists f. split; auto. apply labels_eq. intros i j Hi Hj. rewrite (Hl i j), (Hf i j) by auto. rewrite (@joined_linked E t HE i j). tauto. }
    destruct distances_bounded as (tm & Hz & Hm).
    assert (Eall : upto w tm E = E) by (apply upto_all; intros [a b] Hab; apply HE in Hab; apply Hm; tauto).
    assert (Tall : upto w tm T = T) by (apply upto_all; intros [a b] Hab; apply HT, HE in Hab; apply Hm; tauto).
    destruct (labels_linked E) as (f & Hf). assert (Hf' : kernel f (upto w tm E)) by now rewrite Eall. destruct (HK tm f Hf') as [K1 K2]. rewrite Tall in *.
    assert (Hconn : forall i j, i < n -> j < n -> linked E i j) by (intros i j Hi Hj; eapply linked_step; [constructor|left; now apply HE]).
    assert (N1 : number_of_labels f n = 1).
    { rewrite (@labels_eq (fun _ => 0) f n) by (intros i j Hi Hj; split; auto; intros _; now apply Hf, Hconn).
      now apply one_label_eq. }
    assert (LT : length T = n - 1) by lia.
    exists T. split; [split; auto; split; [intros a b Hab; apply HE; auto|intros i j Hi Hj; apply K1, Hf, Hconn; auto]|].
    intros t label Hl. destruct (Hlab t label Hl) as (g & Hg & ->). destruct (HK t g Hg) as [_ Hc]. pose proof (lengths_above t T). lia.
  Qed.
  (** a connected graph has, above every level, at least as many edges *)
  Lemma tree_least t label T : 1 <= n -> labels_components z d t label -> connects n T -> number_of_labels label n <= 1 + above t (lengths z d T).
  Proof.
    intros Hn Hl [HT Hc]. set (E := list_prod (seq 0 n) (seq 0 n)).
    assert (HE : forall a b, In (a, b) E <-> a < n /\ b < n) by (intros a b; unfold E; rewrite in_prod_iff, !in_seq; lia).
    destruct (labels_linked (upto w t E)) as (f & Hf).
    assert (Ef : number_of_labels label n = number_of_labels f n) by (apply labels_eq; intros i j Hi Hj; rewrite (Hl i j), (Hf i j) by auto; rewrite (@joined_linked E t HE i j); tauto).
    set (T' := filter (fun e => oltb t (w e)) T). destruct (labels_linked (T' ++ upto w t E)) as (g & Hg). pose proof (more_edges T' n Hf Hg) as Hle.
    assert (Hone : number_of_labels g n <= 1).
    { rewrite (@labels_eq (fun _ => 0) g n).
      - unfold number_of_labels. apply Nat.le_trans with (length [0]); auto. apply NoDup_incl_length; [apply NoDup_nodup|]. intros x Hx. apply nodup_In, in_map_iff in Hx. destruct Hx as (y & <- & _). now left.
      - intros i j Hi Hj. split; auto. intros _. apply Hg. apply (@linked_mono T); [|now apply Hc]. intros [a b] Hab. apply in_app_iff. destruct (oleb_spec (w (a, b)) t) as [H|H].
        + right. apply filter_In. split; [apply HE; auto|]. destruct (oleb_spec (w (a, b)) t); [auto|contradiction].
        + left. apply filter_In. split; auto. destruct (oltb_spec t (w (a, b))) as [|H']; auto. exfalso. apply H', olt_not_le, H. }
    assert (LT' : length T' = above t (lengths z d T)). { unfold T', above, lengths. clear. induction T as [|e T IH]; auto. cbn [map filter]. fold (w e). destruct (oltb t (w e)); cbn [length]; auto. }
    lia.
  Qed.
End Tree.

Lemma filter_map_filter {A B} (p : A -> bool) (q : B -> bool) (f : A -> B) l : length (filter q (map f (filter p l))) = length (filter (fun x => p x && q (f x)) l).
Proof. induction l as [|x l IH]; auto. cbn [filter]. destruct (p x); cbn [andb map filter]; auto. destruct (q (f x)); cbn [length]; auto. Qed.
Lemma binomial_zero a : binomial a 0 = 1.
Proof. now destruct a. Qed.
Lemma binomial_one a : binomial a (0 + 1) = a.
Proof. induction a as [|a IH]; auto. cbn [binomial Nat.add] in *. rewrite IH, binomial_zero. lia. Qed.

(** ** C101 *)
Theorem C101_spanning_tree :
  forall (HI : heaps) (K : coeffT) (F : ordT) (uw : N) (z : F) (d : list (list F)) (max_dim : nat),
  1 <= length d -> distance_matrix z d -> 1 <= max_dim -> codes_fit uw (length d) (max_dim + 2) ->
  forall (L : list N) (fuel : nat), covers_simplices (length d) (max_dim + 2) L -> length L < fuel ->
  exists rc dg T, rips_cohomology HI (K:=K) fuel uw z d max_dim = Ok (rc, dg) /\
    spanning_tree (length d) T /\
    (forall T', connects (length d) T' -> dominated (lengths z d T) (lengths z d T')) /\
    forall (phi : N_ord -> F) (dim : N_ord -> Z), rips_filtration z d phi -> simplex_dim (length d) dim ->
      Permutation (map (fun p => (phi (unrev (snd p)), phi (unrev (fst p)))) (filter (fun p : rN * rN => (dim (unrev (snd p)) =? 0)%Z) (pairings dg)))
                  (map (fun x => (z, x)) (lengths z d T)).
Proof.
  intros HI K F uw z d m Hn Hd Hm Hfit L fuel HL Hf. pose proof (distance_rips Hd) as Hrd.
  destruct (@C72_components HI K F uw z d m Hn Hd Hm Hfit L fuel HL Hf) as (rc & dg & E1 & H1).
  destruct (@C71_cohomology_counts HI K F uw z d m Hn Hrd Hm Hfit L fuel HL Hf) as (rc' & dg' & E2 & _ & _ & H2). rewrite E1 in E2. injection E2 as <- <-.
  destruct (@C44_diagram_shape HI K F uw z d m Hrd Hm Hfit L fuel HL Hf) as (rc' & dg' & E2 & S1 & _). rewrite E1 in E2. injection E2 as <- <-.
  destruct (tree_exists Hd Hn) as (T & HT & HK). exists rc, dg, T. split; auto. split; auto. split.
  - intros T' HT'.
    assert (Hab : forall t, above t (lengths z d T) <= above t (lengths z d T')).
    { intros t. destruct (labels_exist t Hd) as (label & Hl). pose proof (HK t label Hl). pose proof (tree_least Hd Hn Hl HT'). lia. }
    apply (@above_dominated F (length (lengths z d T))); auto.
    unfold lengths. rewrite !map_length. destruct HT as [_ ->]. destruct HT' as [_ Hc].
    destruct (labels_linked []) as (f & Hf0). destruct (labels_linked (T' ++ [])) as (g & Hg). pose proof (@more_edges [] T' (length d) f g Hf0 Hg) as Hle. rewrite no_edges in Hle by auto.
    assert (number_of_labels g (length d) <= 1); [|lia]. rewrite app_nil_r in Hg. rewrite (@labels_eq (fun _ => 0) g (length d)) by (intros i j Hi Hj; split; auto; intros _; apply Hg; now apply Hc).
    unfold number_of_labels. apply Nat.le_trans with (length [0]); auto. apply NoDup_incl_length; [apply NoDup_nodup|]. intros x Hx. apply nodup_In, in_map_iff in Hx. destruct Hx as (y & <- & _). now left.
  - intros phi dim Hphi Hdim. set (ps := filter (fun p : rN * rN => (dim (unrev (snd p)) =? 0)%Z) (pairings dg)).
    assert (Hps : forall p, In p ps -> phi (unrev (snd p)) = z /\ ole z (phi (unrev (fst p)))).
    { intros [i j] Hp. apply filter_In in Hp. destruct Hp as [Hp Hq]. cbn [fst snd] in *. destruct (S1 i j Hp) as (s & u & fs & fu & Hs & Hu & Hls & Hlu & -> & -> & _). cbn [unrev] in *.
      rewrite (Hdim _ Hs) in Hq. apply Z.eqb_eq in Hq. destruct s as [|v [|]]; cbn [length] in Hq; try lia. assert (Hv : v < length d) by (destruct Hs as (_ & _ & Hb); now inversion Hb).
      split; [exact (@phi_vertex F z d Hd phi Hphi v Hv)|]. destruct (Hphi u Hu) as [(i & j & Hi & Hj & E) _]. rewrite <- E. destruct Hd as (_ & _ & _ & H4). destruct Hu as (_ & _ & Hb). rewrite Forall_forall in Hb. apply H4; auto. }
    assert (Emap : map (fun p => (phi (unrev (snd p)), phi (unrev (fst p)))) ps = map (fun x => (z, x)) (map (fun p => phi (unrev (fst p))) ps)).
    { rewrite map_map. apply map_ext_in. intros p Hp. f_equal. apply (Hps p Hp). }
    rewrite Emap. apply Permutation_map. apply dominated_perm.
    + unfold lengths. rewrite !map_length. destruct HT as [_ ->]. specialize (H2 dim Hdim 0 ltac:(lia)). unfold count_at in H2. cbn [Z.of_nat] in H2. unfold ps. etransitivity; [exact H2|]. apply binomial_one.
    + assert (Ea : forall t, above t (map (fun p => phi (unrev (fst p))) ps) = length (filter (fun p : rN * rN => (dim (unrev (snd p)) =? 0)%Z && oltb t (phi (unrev (fst p)))) (pairings dg))).
      { intros t. exact (filter_map_filter (fun p : rN * rN => (dim (unrev (snd p)) =? 0)%Z) (fun x => oltb t x) (fun p => phi (unrev (fst p))) (pairings dg)). }
      intros t. destruct (oleb_spec z t) as [Hz|Hz].
      * destruct (labels_exist t Hd) as (label & Hl). pose proof (H1 phi dim Hphi Hdim t label Hz Hl) as X1. pose proof (HK t label Hl) as X2. rewrite Ea. lia.
      * apply olt_not_le in Hz. assert (Hfull : forall l : list F, (forall x, In x l -> ole z x) -> above t l = length l).
        { induction l as [|x l IH]; intros H; auto. rewrite above_cons, IH by (intros; apply H; now right). destruct (oltb_spec t x) as [|Hx]; auto. exfalso. apply Hx. eapply olt_le_trans; [exact Hz|]. apply H. now left. }
        rewrite !Hfull.
        -- unfold lengths. rewrite !map_length. destruct HT as [_ ->]. specialize (H2 dim Hdim 0 ltac:(lia)). unfold count_at in H2. cbn [Z.of_nat] in H2. unfold ps. etransitivity; [exact H2|]. apply binomial_one.
        -- intros x Hx. unfold lengths in Hx. apply in_map_iff in Hx. destruct Hx as ([a b] & <- & Hab). destruct HT as [[HT _] _]. apply HT in Hab. destruct Hd as (_ & _ & _ & H4). apply H4; apply Hab.
        -- intros x Hx. apply in_map_iff in Hx. destruct Hx as (p & <- & Hp). apply (Hps p Hp).
Qed.
Print Assumptions C101_spanning_tree.

(** ** Minimum spanning trees *)
(** a spanning tree whose edges can be matched with those of any other one (with any connected graph) so that none of them is longer than its partner *)
Definition minimal_tree {F : ordT} (z : F) (d : list (list F)) (T : list (nat * nat)) : Prop :=
  spanning_tree (length d) T /\ forall T', spanning_tree (length d) T' -> dominated (lengths z d T) (lengths z d T').
Lemma dominated_above {F : ordT} (l l' : list F) t : dominated l l' -> above t l <= above t l'.
Proof.
  intros (M & rest & P & P' & H). rewrite (above_perm t P), (above_perm t P').
  assert (Hm : above t (map fst M) <= above t (map snd M)).
  { clear P P'. induction M as [|[x y] M IH]; auto. cbn [map fst snd]. rewrite !above_cons. pose proof (IH ltac:(intros; apply H; now right)). destruct (oltb_spec t x) as [Hx|]; [|lia]. destruct (oltb_spec t y) as [|Hy]; [lia|]. exfalso. apply Hy. eapply olt_le_trans; [exact Hx|]. apply H. now left. }
  assert (Ha : forall a b : list F, above t (a ++ b) = above t a + above t b) by (intros a b; unfold above; now rewrite filter_app, app_length). rewrite Ha. lia.
Qed.
Lemma dominated_antisym {F : ordT} (l l' : list F) : length l = length l' -> dominated l l' -> dominated l' l -> Permutation l l'.
Proof. intros El H H'. apply dominated_perm; auto. intros t. apply Nat.le_antisymm; now apply dominated_above. Qed.

(** A minimum spanning tree exists, and the bars of dimension 0 are those of any of them. *)
Theorem C101_minimum_spanning_tree :
  forall (HI : heaps) (K : coeffT) (F : ordT) (uw : N) (z : F) (d : list (list F)) (max_dim : nat),
  1 <= length d -> distance_matrix z d -> 1 <= max_dim -> codes_fit uw (length d) (max_dim + 2) ->
  forall (L : list N) (fuel : nat), covers_simplices (length d) (max_dim + 2) L -> length L < fuel ->
  exists rc dg, rips_cohomology HI (K:=K) fuel uw z d max_dim = Ok (rc, dg) /\
    (exists T, minimal_tree z d T) /\
    forall (phi : N_ord -> F) (dim : N_ord -> Z) (T : list (nat * nat)), rips_filtration z d phi -> simplex_dim (length d) dim -> minimal_tree z d T ->
      Permutation (map (fun p => (phi (unrev (snd p)), phi (unrev (fst p)))) (filter (fun p : rN * rN => (dim (unrev (snd p)) =? 0)%Z) (pairings dg)))
                  (map (fun x => (z, x)) (lengths z d T)).
Proof.
  intros HI K F uw z d m Hn Hd Hm Hfit L fuel HL Hf.
  destruct (@C101_spanning_tree HI K F uw z d m Hn Hd Hm Hfit L fuel HL Hf) as (rc & dg & T0 & E1 & HT0 & Hmin & H1).
  exists rc, dg. split; auto. split; [exists T0; split; auto; intros T' [HT' _]; auto|]. intros phi dim T Hphi Hdim [HT HT']. rewrite (H1 phi dim Hphi Hdim). apply Permutation_map.
  apply dominated_antisym; [|apply Hmin, HT|now apply HT']. unfold lengths. rewrite !map_length. destruct HT0 as [_ ->]. destruct HT as [_ ->]. reflexivity.
Qed.
Print Assumptions C101_minimum_spanning_tree.

(** The Rips program: the printed lines of dimension 0 are the edges of a minimum spanning tree that are long enough to be printed. *)
Theorem C101_program :
  forall (HI : heaps) (F : ordT) (uw : N) (z : F) (sub : F -> F -> F) (eps : F) (d : list (list F)) (max_dim : nat),
  1 <= length d -> distance_matrix z d -> 1 <= max_dim -> codes_fit uw (length d) (max_dim + 2) -> (forall x, ~ olt eps (sub x x)) ->
  forall (L : list N) (fuel : nat), covers_simplices (length d) (max_dim + 2) L -> length L < fuel ->
  exists sizes (ess : list (nat * N * F)) (printed : list (bar_line F)),
    rips_main HI fuel uw z sub eps d max_dim = Ok (sizes, ess, printed) /\
    forall T, minimal_tree z d T ->
      Permutation (map snd (filter (fun line : bar_line F => fst (fst line) =? 0) printed))
                  (map (fun x => (z, x)) (filter (fun x => oltb eps (sub x z)) (lengths z d T))).
Proof.
  intros HI F uw z sub eps d m Hn Hd Hm Hfit Heps L fuel HL Hf. pose proof (distance_rips Hd) as Hrd.
  destruct (@program_bars HI F uw z sub eps d m Hrd Hm Hfit L fuel HL Hf) as (sizes & ess & bars & E & Hle & HB).
  exists sizes, ess, (filter (fun line => oltb eps (sub (snd (snd line)) (fst (snd line)))) bars). split; auto. intros T HT.
  destruct (@C101_minimum_spanning_tree HI Z2_coeff F uw z d m Hn Hd Hm Hfit L fuel HL Hf) as (rc & dg & E1 & _ & H1).
  destruct (@run_bars F z Z2_coeff HI uw d m Hrd Hm Hfit L fuel HL Hf) as (rc' & dg' & E2 & H2). rewrite E1 in E2. injection E2 as <- <-.
  destruct (@spec_exists Z2_coeff F z d Hrd) as (Hphi & _ & Hdim & _).
  specialize (H1 _ _ T Hphi Hdim HT). specialize (H2 _ _ Hphi Hdim 0%Z ltac:(lia)). specialize (HB 0 ltac:(lia)).
  destruct (rips_bars_unique HB H2) as [_ P].
  assert (Hfilt : forall (p : F * F -> bool) a b, Permutation a b -> Permutation (filter p a) (filter p b)).
  { intros p a b HP. induction HP; cbn [filter]; auto; [destruct (p x); auto|destruct (p x), (p y); auto; apply perm_swap|etransitivity; eauto]. }
  set (big := fun p : F * F => oltb eps (sub (snd p) (fst p))).
  assert (Hbig : forall l, (forall b e, In (b, e) l -> ole b e) -> filter big (filter proper l) = filter big l).
  { intros l Hl. apply filter_filter_sub. intros [b e] Hin Hb. unfold big in Hb. cbn [fst snd] in Hb. unfold proper. cbn [fst snd]. destruct (oltb_spec b e) as [|Hn']; auto. exfalso. specialize (Hl b e Hin). apply ole_lt_eq in Hl. destruct Hl as [Hl| ->]; [contradiction|]. destruct (oltb_spec eps (sub e e)); [eapply Heps; eauto|discriminate]. }
  apply (Hfilt big) in P. rewrite Hbig in P.
  2: { intros b e Hin. apply in_map_iff in Hin. destruct Hin as ([[k [c1 c2]] [fb fe]] & [= <- <-] & Hin). apply filter_In in Hin. destruct Hin as [Hin _]. eapply Hle; eauto. }
  rewrite Hbig in P.
  2: { intros b e Hin. apply (Permutation_in _ H1) in Hin. apply in_map_iff in Hin. destruct Hin as (x & [= <- <-] & Hx). unfold lengths in Hx. apply in_map_iff in Hx. destruct Hx as ([i j] & <- & Hij). destruct HT as [[[HT _] _] _]. apply HT in Hij. destruct Hd as (_ & _ & _ & H4). apply H4; apply Hij. }
  apply (Hfilt big) in H1. rewrite H1 in P.
  assert (Efm : forall A B (q : B -> bool) (f : A -> B) l, filter q (map f l) = map f (filter (fun x => q (f x)) l)).
  { intros A B q f l. induction l as [|x l IH]; auto. cbn [map filter]. destruct (q (f x)); cbn [map]; now rewrite IH. }
  rewrite !Efm in P. cbn [fst snd] in P.
  assert (Ec : filter (fun line : bar_line F => fst (fst line) =? 0) (filter (fun line => oltb eps (sub (snd (snd line)) (fst (snd line)))) bars) = filter (fun line : bar_line F => big (snd line)) (filter (fun line : bar_line F => fst (fst line) =? 0) bars)).
  { unfold big. clear. induction bars as [|x l IH]; auto. cbn [filter]. destruct (oltb eps (sub (snd (snd x)) (fst (snd x)))) eqn:Eb; destruct (fst (fst x) =? 0) eqn:Ez; cbn [filter]; rewrite ?Eb, ?Ez, ?IH; auto. }
  rewrite Ec. exact P.
Qed.
Print Assumptions C101_program.

(** The points 0, 1, 3, 7 on a line: the tree 0-1-2-3 with edges 1, 2, 4 is minimal; the program prints bars ending at 1, 2 and 4. *)
Example C101_ex :
  distance_matrix (0 : nat_ord) line4 /\ spanning_tree (length line4) [(0, 1); (1, 2); (2, 3)] /\ lengths (0 : nat_ord) line4 [(0, 1); (1, 2); (2, 3)] = [1; 2; 4] /\
  spanning_tree (length line4) [(0, 1); (0, 2); (0, 3)] /\ lengths (0 : nat_ord) line4 [(0, 1); (0, 2); (0, 3)] = [1; 3; 7] /\
  (exists sz ess bars, rips_main list_heaps 700 (2 ^ 64) (0 : nat_ord) Nat.sub (0 : nat_ord) line4 1 = Ok (sz, ess, bars) /\ map snd bars = [(0, 1); (0, 2); (0, 4)]) /\
  minimal_tree (0 : nat_ord) line4 [(0, 1); (1, 2); (2, 3)].
Proof.
  assert (S1 : spanning_tree (length line4) [(0, 1); (1, 2); (2, 3)]).
  { split; [|reflexivity]. change (length line4) with 4. split; [intros a b H; simpl in H; repeat (destruct H as [[= <- <-]|H]; [lia|]); destruct H|].
    assert (H0 : forall i, i < 4 -> linked [(0, 1); (1, 2); (2, 3)] 0 i).
    { intros i Hi. assert (A1 : linked [(0, 1); (1, 2); (2, 3)] 0 1) by (eapply linked_step; [constructor|left; simpl; auto]). assert (A2 : linked [(0, 1); (1, 2); (2, 3)] 0 2) by (eapply linked_step; [exact A1|left; simpl; auto]).
      assert (A3 : linked [(0, 1); (1, 2); (2, 3)] 0 3) by (eapply linked_step; [exact A2|left; simpl; auto]). do 4 (destruct i as [|i]; [auto; constructor|]). lia. }
    intros i j Hi Hj. apply (@linked_trans _ i 0 j); [apply linked_sym|]; auto. }
  split; [exact line4_distance|]. split; auto. split; [reflexivity|]. split; [|split; [reflexivity|split]].
  - split; [|reflexivity]. change (length line4) with 4. split; [intros a b H; simpl in H; repeat (destruct H as [[= <- <-]|H]; [lia|]); destruct H|].
    assert (H0 : forall i, i < 4 -> linked [(0, 1); (0, 2); (0, 3)] 0 i) by (intros i Hi; do 4 (destruct i as [|i]; [solve [apply linked_refl | eapply linked_step; [apply linked_refl|left; simpl; auto]]|]); lia).
    intros i j Hi Hj. apply (@linked_trans _ i 0 j); [apply linked_sym|]; auto.
  - do 3 eexists. split; vm_compute; reflexivity.
  - split; auto. destruct C44_ex_hyps as (_ & H2 & H3). assert (Hx0 : forall x : nat_ord, ~ olt (0 : nat_ord) (Nat.sub x x)) by (intros x Hx; unfold olt in Hx; cbn [cmp nat_ord] in Hx; rewrite Nat.sub_diag in Hx; discriminate).
    destruct (@C101_spanning_tree list_heaps Z2_coeff nat_ord (2 ^ 64) 0 line4 2 ltac:(cbn; lia) line4_distance ltac:(lia) H2 _ _ H3 (Nat.lt_succ_diag_r _)) as (rc & dg & T & E1 & HT & Hmin & H1).
    intros T' [HT' _]. specialize (Hmin T' HT').
    destruct (@C101_program list_heaps nat_ord (2 ^ 64) 0 Nat.sub 0 line4 2 ltac:(cbn; lia) line4_distance ltac:(lia) H2 Hx0 _ 700 H3 ltac:(rewrite map_length, seq_length; lia)) as (sz & ess & pr & E2 & H4).
    assert (Hpr : map snd (filter (fun line : bar_line nat_ord => fst (fst line) =? 0) pr) = [(0, 1); (0, 2); (0, 4)]).
    { revert E2. vm_compute. intros [= <- <- <-]. reflexivity. }
    assert (HTm : minimal_tree (0 : nat_ord) line4 T).
    { split; auto. intros T1 [HT1 _]. destruct (@C101_spanning_tree list_heaps Z2_coeff nat_ord (2 ^ 64) 0 line4 2 ltac:(cbn; lia) line4_distance ltac:(lia) H2 _ _ H3 (Nat.lt_succ_diag_r _)) as (rc1 & dg1 & T2 & E3 & HT2 & Hmin2 & H5). clear - HT1 HT Hmin2 HT2 H5 H1 E3 E1. rewrite E1 in E3. injection E3 as <- <-.
      destruct (@spec_exists Z2_coeff nat_ord 0 line4 (distance_rips line4_distance)) as (Hphi & _ & Hdim & _). specialize (H1 _ _ Hphi Hdim). specialize (H5 _ _ Hphi Hdim). rewrite H5 in H1.
      apply (Permutation_map snd) in H1. rewrite !map_map in H1. cbn [snd] in H1. rewrite !map_id in H1. destruct (Hmin2 T1 HT1) as (M & rest & P1 & P2 & P3). exists M, rest. split; auto. now rewrite <- H1. }
    specialize (H4 T HTm). rewrite Hpr in H4. apply (Permutation_map snd) in H4. rewrite map_map in H4. cbn [map snd] in H4. rewrite map_id in H4.
    assert (Hl : length (lengths (0 : nat_ord) line4 T) = 3) by (unfold lengths; rewrite map_length; apply HT).
    assert (Hall : filter (fun x : nat_ord => oltb (0 : nat_ord) (Nat.sub x 0)) (lengths (0 : nat_ord) line4 T) = lengths (0 : nat_ord) line4 T).
    { apply Permutation_length in H4. cbn [length] in H4. rewrite <- Hl in H4. revert H4. generalize (lengths (0 : nat_ord) line4 T). clear. intros l. assert (Hle : forall l : list nat_ord, length (filter (fun x : nat_ord => oltb (0 : nat_ord) (Nat.sub x 0)) l) <= length l) by (induction l0 as [|x l0 IH]; auto; cbn [filter]; destruct (oltb (0 : nat_ord) (Nat.sub x 0)); cbn [length]; lia). induction l as [|a l IH]; auto. cbn [filter]. destruct (oltb (0 : nat_ord) (Nat.sub a 0)); cbn [length]; intros E; [f_equal; auto|]. specialize (Hle l). lia. }
    rewrite Hall in H4. change (lengths (0 : nat_ord) line4 [(0, 1); (1, 2); (2, 3)]) with [1; 2; 4]. destruct Hmin as (M & rest & P1 & P2 & P3). exists M, rest. split; auto. now rewrite H4.
Qed.
