(** Digraphs with a vertex joined to every other one: the path homology in dimension 1 is that of the loops. *)
From Verif Require Import Base Fields FieldsFacts Spec LinAlg Columns ColumnsFacts Matrices SpecMat MatricesFacts Reduction Graded StandardResults Duality GrpphCells Grpph SpecGrpph SpecPath SpecPH SpecWeighted GrpphFacts GrpphColumns GrpphComplex GrpphReduce GrpphInvolution GrpphList GrpphRun Persistence RipsPersistence BettiUnique PathBasis PathBetti Weighted.
From Coq Require Import Ring Field Ring_theory Permutation Relations Lia.
Set Implicit Arguments.

Section Cone.
  Context {K : coeffT} {F : ordT}.
  Add Field KFCone : (F_field K).
  Variables (time : nat -> nat -> option F) (n : nat) (z inf : F) (E : list (nat * nat)).
  Hypothesis HG : filtered_digraph time n z inf.
  Hypothesis HE : forall s t, In (s, t) E -> s < n /\ t < n.
  Notation bd1 e := (edge_bdry (K:=K) n e).
  Notation bd2 u := (path_bdry (K:=K) n u).
  Notation B1 := (boundary_1 (K:=K) time n).

  Lemma path_B1 t a b c : edge_at time t a b -> edge_at time t b c -> (a <> c -> edge_at time t a c) -> B1 t (fun x y => path_boundary a b c x y).
  Proof.
    intros T1 T2 T3. assert (Hx : a < n /\ b < n /\ c < n). { destruct T1 as (f & Ef & _), T2 as (g & Eg & _). destruct HG as [_ HG2]. apply HG2 in Ef, Eg. tauto. }
    assert (Hb : forall x y, bd2 (fun a' b' c' => delta ((a =? a') && (b =? b') && (c =? c'))) x y = path_boundary a b c x y) by (intros x y; apply path_bdry_single; tauto).
    exists (fun a' b' c' => delta ((a =? a') && (b =? b') && (c =? c'))). split; [|intros x y; now rewrite Hb]. split.
    - intros a' b' c' Hn. apply delta3 in Hn. destruct Hn as (-> & -> & ->). auto.
    - intros x y Hn. rewrite Hb in Hn. unfold path_boundary in Hn. destruct (Nat.eqb_spec a c);
        destruct (Nat.eqb_spec b x), (Nat.eqb_spec c y), (Nat.eqb_spec a x), (Nat.eqb_spec b y); subst; auto; cbn [andb delta] in Hn; exfalso; apply Hn; ring.
  Qed.
  Lemma B1_sum t {A} (L : list A) (w : A -> option K) (p : A -> edge_chain (K:=K)) : (forall x, In x L -> w x <> f0 -> B1 t (p x)) -> B1 t (fun a b => vsum L (fun x => fmul (w x) (p x a b))).
  Proof.
    induction L as [|a L IH]; intros H; [apply B1_zero|]. cbn [vsum]. specialize (IH (fun x Hx => H x (or_intror Hx))). destruct (fscalar_dec (w a)) as [E0|Hn].
    - eapply B1_ext; [|exact IH]. intros x y. cbv beta. rewrite E0. ring.
    - eapply B1_ext; [|exact (B1_lin (w a) IH (H a (or_introl eq_refl) Hn))]. intros x y. cbv beta. ring.
  Qed.
  (** a boundary consists of edges that are present *)
  Lemma B1_present t e x y : B1 t e -> e x y <> f0 -> edge_at time t x y.
  Proof. intros (u & [_ Hu] & He) Hn. apply Hu. now rewrite <- He. Qed.

  Variables (t : F) (r : nat).
  Hypothesis Hzt : ole z t.
  Hypothesis Hr : r < n.
  Hypothesis Hroot : forall v, v < n -> v <> r -> edge_at time t r v.
  Hypothesis Hpres : forall x y, In (x, y) E -> time x y <> None -> edge_at time t x y.

  Definition spoke (v : nat) : edge_chain (K:=K) := fun a b => if v =? r then f0 else unit r v a b.
  Lemma to_spokes x y : x <> y -> edge_at time t x y -> B1 t (fun a b => fsub (unit x y a b) (fsub (spoke y a b) (spoke x a b))).
  Proof.
    intros Hxy Hat. assert (Hlt : x < n /\ y < n) by (destruct Hat as (f & Ef & _); destruct HG as [_ HG2]; apply HG2 in Ef; tauto). unfold spoke.
    destruct (Nat.eqb_spec y r) as [->|Hyr]; destruct (Nat.eqb_spec x r) as [->|Hxr].
    - congruence.
    - eapply B1_ext; [|apply (@path_B1 t r x r); [apply Hroot; tauto|auto|congruence]]. intros a b. cbv beta. unfold path_boundary, unit. rewrite Nat.eqb_refl.
      generalize (delta ((r =? a) && (x =? b)) : option K) (delta ((x =? a) && (r =? b)) : option K). intros. ring.
    - eapply B1_ext; [|apply B1_zero]. intros a b. cbv beta. ring.
    - eapply B1_ext; [|apply (@path_B1 t r x y); [apply Hroot; tauto|auto|intros _; apply Hroot; tauto]]. intros a b. cbv beta. unfold path_boundary, unit. destruct (Nat.eqb_spec r y); [congruence|].
      generalize (delta ((r =? a) && (x =? b)) : option K) (delta ((x =? a) && (y =? b)) : option K) (delta ((r =? a) && (y =? b)) : option K). intros. ring.
  Qed.

  (** an edge closed up through the root *)
  Definition closed_up (x y : nat) : edge_chain (K:=K) := fun a b => fsub (unit x y a b) (fsub (spoke y a b) (spoke x a b)).
  Lemma spoke_nz v a b : spoke v a b <> f0 -> a = r /\ b = v /\ v <> r.
  Proof. unfold spoke. destruct (Nat.eqb_spec v r); [congruence|]. intros H. apply unit_nz in H. destruct H; auto. Qed.
  Lemma spoke_bdry v w : v < n -> bd1 (spoke v) w = fsub (delta (v =? w)) (delta (r =? w)).
  Proof.
    intros Hv. unfold spoke. destruct (Nat.eqb_spec v r) as [->|Hne]; [|now rewrite unit_bdry]. unfold edge_bdry. transitivity (f0 : option K); [|ring].
    apply vsum_0. intros x _. apply vsum_0. intros y _. ring.
  Qed.
  Lemma closed_cycle x y v : x < n -> y < n -> bd1 (closed_up x y) v = f0.
  Proof.
    intros Hx Hy. unfold closed_up. transitivity (fsub (bd1 (unit x y) v) (fsub (bd1 (spoke y) v) (bd1 (spoke x) v))).
    - unfold edge_bdry. rewrite <- !vsum_sub. apply vsum_ext. intros a _. rewrite <- !vsum_sub. apply vsum_ext. intros b _. cbv beta.
      generalize (unit (K:=K) x y a b) (spoke y a b) (spoke x a b) (fsub (delta (b =? v)) (delta (a =? v)) : option K). intros. ring.
    - rewrite unit_bdry, !spoke_bdry by auto. unfold node. generalize (delta (x =? v) : option K) (delta (y =? v) : option K) (delta (r =? v) : option K). intros. ring.
  Qed.

  Lemma betti1_cone (L : list edge_ord) : NoDup L -> (forall x y, In (x, y) L <-> In (x, y) E /\ time x y = None) -> path_betti_1 (K:=K) time n z E t t (length L).
  Proof.
    intros HN HL. assert (Hirr : forall v, time v v = None) by apply HG.
    exists edge_ord, L, (fun p : edge_ord => closed_up (fst p) (snd p)). split; auto. split; auto. split; [|split].
    - intros [x y] Hx. cbn [fst snd]. apply HL in Hx. destruct Hx as [Hx _]. pose proof (HE _ _ Hx) as [Hlx Hly]. split; [|intros v; now apply closed_cycle].
      assert (Hsp : forall v a b, v < n -> spoke v a b <> f0 -> grounded_edge_at time z E t a b).
      { intros v a b Hv Hn. apply spoke_nz in Hn. destruct Hn as (-> & -> & Hne). unfold grounded_edge_at. destruct (in_dec ord_eq_dec ((r, v) : edge_ord) E) as [Hi|Hi]; [now left|right; auto]. }
      intros a b Hn. destruct (fscalar_dec (unit (K:=K) x y a b)) as [E1|Hu]; [|apply unit_nz in Hu; destruct Hu as [-> ->]; left; auto].
      destruct (fscalar_dec (spoke y a b)) as [E2|Hu]; [|exact (Hsp _ _ _ Hly Hu)]. destruct (fscalar_dec (spoke x a b)) as [E3|Hu]; [|exact (Hsp _ _ _ Hlx Hu)].
      exfalso. apply Hn. unfold closed_up. rewrite E1, E2, E3. ring.
    - intros e [He Hcyc]. exists (fun p : edge_ord => e (fst p) (snd p)). set (all := list_prod (seq 0 n) (seq 0 n)).
      assert (Hall : NoDup all) by (apply nodup_prod; apply seq_NoDup).
      assert (Hlt : forall x y, e x y <> f0 -> x < n /\ y < n).
      { intros x y Hn. apply He in Hn. destruct Hn as [[H1 _]|[_ (f & Ef & _)]]; [auto|]. destruct HG as [_ HG2]. apply HG2 in Ef. tauto. }
      assert (Hnl : forall x y, e x y <> f0 -> ~ In (x, y) L -> edge_at time t x y).
      { intros x y Hn Hne. apply He in Hn. destruct Hn as [[H1 _]|[_ Hat]]; [|auto]. apply Hpres; auto. intros Ht. apply Hne, HL. auto. }
      eapply B1_ext; [|apply (@B1_sum t (nat * nat) all (fun p => if in_dec ord_eq_dec (p : edge_ord) L then f0 else e (fst p) (snd p)) (fun p => closed_up (fst p) (snd p)))].
      + intros a b. cbv beta.
        assert (E1 : vsum all (fun p => fmul (e (fst p) (snd p)) (unit (fst p) (snd p) a b)) = e a b).
        { destruct (fscalar_dec (e a b)) as [E0|Hn].
          - rewrite E0. apply vsum_0. intros [x y] _. cbn [fst snd]. destruct (fscalar_dec (unit (K:=K) x y a b)) as [->|Hu]; [ring|]. apply unit_nz in Hu. destruct Hu as [-> ->]. rewrite E0. ring.
          - destruct (Hlt _ _ Hn). rewrite (@vsum_single K (nat * nat) _ _ (a, b)); [|auto|apply in_prod_iff; rewrite !in_seq; lia|].
            + cbn [fst snd]. unfold unit. rewrite !Nat.eqb_refl. cbn [andb delta]. ring.
            + intros [x y] _ Hne. cbn [fst snd]. destruct (fscalar_dec (unit (K:=K) x y a b)) as [->|Hu]; [ring|]. apply unit_nz in Hu. destruct Hu as [-> ->]. congruence. }
        assert (E3 : vsum all (fun p => fmul (e (fst p) (snd p)) (fsub (spoke (snd p) a b) (spoke (fst p) a b))) = f0).
        { unfold all. rewrite <- (vsum_prod (seq 0 n) (seq 0 n) (fun x y => fmul (e x y) (fsub (spoke y a b) (spoke x a b)))).
          assert (Hpick : forall u, u < n -> vsum (seq 0 n) (fun v => fmul (delta (u =? v)) (spoke v a b)) = spoke u a b).
          { intros u Hu. rewrite (@vsum_single K nat (seq 0 n) _ u); [|apply seq_NoDup|apply in_seq; lia|].
            - rewrite Nat.eqb_refl. cbn [delta]. ring.
            - intros v _ Hne. destruct (Nat.eqb_spec u v); [congruence|]. cbn [delta]. ring. }
          transitivity (vsum (seq 0 n) (fun v => fmul (bd1 e v) (spoke v a b))); [|apply vsum_0; intros v _; rewrite Hcyc; ring]. symmetry.
          transitivity (vsum (seq 0 n) (fun v => vsum (seq 0 n) (fun x => vsum (seq 0 n) (fun y => fmul (e x y) (fmul (fsub (delta (y =? v)) (delta (x =? v))) (spoke v a b)))))).
          { apply vsum_ext. intros v _. unfold edge_bdry. transitivity (fmul (spoke v a b) (vsum (seq 0 n) (fun x => vsum (seq 0 n) (fun y => fmul (e x y) (fsub (delta (y =? v)) (delta (x =? v))))))); [ring|].
            rewrite <- vsum_mul_l. apply vsum_ext. intros x _. rewrite <- vsum_mul_l. apply vsum_ext. intros y _. ring. }
          rewrite vsum_swap. apply vsum_ext. intros x Hx. rewrite vsum_swap. apply vsum_ext. intros y Hy. apply in_seq in Hx, Hy. rewrite vsum_mul_l. f_equal.
          rewrite (@vsum_ext K nat (seq 0 n) _ (fun v => fsub (fmul (delta (y =? v)) (spoke v a b)) (fmul (delta (x =? v)) (spoke v a b)))) by (intros; ring).
          rewrite vsum_sub, !Hpick by lia. reflexivity. }
        assert (E2 : vsum all (fun p => fmul (e (fst p) (snd p)) (closed_up (fst p) (snd p) a b)) = e a b).
        { transitivity (fsub (vsum all (fun p => fmul (e (fst p) (snd p)) (unit (fst p) (snd p) a b))) (vsum all (fun p => fmul (e (fst p) (snd p)) (fsub (spoke (snd p) a b) (spoke (fst p) a b))))).
          - rewrite <- vsum_sub. apply vsum_ext. intros p _. unfold closed_up. ring.
          - rewrite E1, E3. ring. }
        assert (E4 : vsum all (fun p => fmul (if in_dec ord_eq_dec (p : edge_ord) L then e (fst p) (snd p) else f0) (closed_up (fst p) (snd p) a b)) = vsum L (fun p : edge_ord => fmul (e (fst p) (snd p)) (closed_up (fst p) (snd p) a b))).
        { transitivity (vsum (filter (fun p => if in_dec ord_eq_dec (p : edge_ord) L then true else false) all) (fun p => fmul (e (fst p) (snd p)) (closed_up (fst p) (snd p) a b))).
          - rewrite vsum_filter. apply vsum_ext. intros p _. destruct (in_dec ord_eq_dec (p : edge_ord) L); [reflexivity|ring].
          - apply vsum_perm, NoDup_Permutation; auto; [now apply NoDup_filter|]. intros [x y]. rewrite filter_In.
            destruct (in_dec ord_eq_dec ((x, y) : edge_ord) L) as [Hi|Hi]; [|split; [intros [_ H]; discriminate|contradiction]]. split; [auto|]. intros _. split; auto.
            apply HL in Hi. destruct Hi as [Hi _]. apply HE in Hi. unfold all. apply (proj2 (in_prod_iff (seq 0 n) (seq 0 n) x y)). rewrite !in_seq. lia. }
        transitivity (fsub (vsum all (fun p => fmul (e (fst p) (snd p)) (closed_up (fst p) (snd p) a b)))
             (vsum all (fun p => fmul (if in_dec ord_eq_dec (p : edge_ord) L then e (fst p) (snd p) else f0) (closed_up (fst p) (snd p) a b)))).
        * rewrite <- !vsum_sub. apply vsum_ext. intros p _. destruct (in_dec ord_eq_dec (p : edge_ord) L); ring.
        * rewrite E4, E2. reflexivity.
      + intros [x y] _ Hn. cbn [fst snd] in *. destruct (in_dec ord_eq_dec ((x, y) : edge_ord) L) as [|Hi]; [congruence|]. pose proof (Hnl _ _ Hn Hi) as Hat. apply to_spokes; auto.
        intros <-. destruct Hat as (f & Ef & _). rewrite Hirr in Ef. discriminate.
    - intros w Hw [x y] Hx. pose proof (proj1 (HL _ _) Hx) as [Hi Ht].
      assert (Hnat : ~ edge_at time t x y) by (intros (f & Ef & _); rewrite Ht in Ef; discriminate).
      destruct (fscalar_dec (vsum L (fun b : edge_ord => fmul (w b) (closed_up (fst b) (snd b) x y)))) as [E0|Hn]; [|exfalso; apply Hnat; exact (@B1_present t _ x y Hw Hn)].
      rewrite <- E0. symmetry. rewrite (@vsum_single K (nat * nat) L _ (x, y)); auto.
      + cbn [fst snd]. unfold closed_up. transitivity (fmul (w (x, y)) f1); [|ring]. f_equal.
        assert (Hs : forall v, v < n -> spoke v x y = f0).
        { intros v Hv. destruct (fscalar_dec (spoke v x y)) as [|Hs]; auto. apply spoke_nz in Hs. destruct Hs as (-> & -> & Hs). exfalso. apply Hnat, Hroot; auto. }
        apply HE in Hi. rewrite !Hs by tauto. unfold unit. rewrite !Nat.eqb_refl. cbn [andb delta]. ring.
      + intros [a b] Hab Hne. cbn [fst snd]. transitivity (fmul (w (a, b)) f0); [|ring]. f_equal. unfold closed_up.
        assert (Hs : forall v, v < n -> spoke v x y = f0).
        { intros v Hv. destruct (fscalar_dec (spoke v x y)) as [|Hs]; auto. apply spoke_nz in Hs. destruct Hs as (-> & -> & Hs). exfalso. apply Hnat, Hroot; auto. }
        apply HL in Hab. destruct Hab as [Hab _]. apply HE in Hab. rewrite !Hs by tauto.
        destruct (fscalar_dec (unit (K:=K) a b x y)) as [->|Hu]; [ring|]. apply unit_nz in Hu. destruct Hu as [-> ->]. exfalso. apply Hne. reflexivity.
  Qed.
End Cone.
