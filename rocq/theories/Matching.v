(** Partial matchings between two lists of bars, for C90. *)
From Verif Require Import Base SpecBottleneck.
From Coq Require Import List Permutation ZArith Lia.
Import ListNotations.
Set Implicit Arguments.

Definition somes {A} (l : list (option A)) : list A := flat_map (fun o => match o with Some a => [a] | None => [] end) l.
Lemma somes_app {A} (l l' : list (option A)) : somes (l ++ l') = somes l ++ somes l'.
Proof. induction l as [|[a|] l IH]; cbn; auto. unfold somes in IH. now rewrite IH. Qed.
Lemma somes_none {A B} (l : list B) : somes (map (fun _ => @None A) l) = [].
Proof. induction l; auto. Qed.
Lemma somes_some {A B} (f : B -> A) l : somes (map (fun x => Some (f x)) l) = map f l.
Proof. induction l as [|a l IH]; cbn; auto. unfold somes in IH. now rewrite IH. Qed.
Section Zip.
  Context {X Y W : Type}.
  Lemma zip_matched : forall (T1 : list (option X * Y)) (T2 : list (Y * option W)), map snd T1 = map fst T2 ->
    exists M A B, Permutation (somes (map fst T1)) (map fst M ++ A) /\ Permutation (somes (map snd T2)) (map snd M ++ B) /\
      (forall x w, In (x, w) M -> exists y, In (Some x, y) T1 /\ In (y, Some w) T2) /\
      (forall x, In x A -> exists y, In (Some x, y) T1 /\ In (y, None) T2) /\
      (forall w, In w B -> exists y, In (None, y) T1 /\ In (y, Some w) T2).
  Proof.
    induction T1 as [|[ox y] T1 IH]; intros [|[y' ow] T2] E; try discriminate.
    - exists [], [], []. split; [constructor|]. split; [constructor|]. split; [|split]; intros; contradiction.
    - cbn [map fst snd] in E. injection E as <- E. destruct (IH T2 E) as (M & A & B & P1 & P2 & H1 & H2 & H3).
      destruct ox as [x|], ow as [w|]; cbn [map fst snd somes flat_map app].
      + exists ((x, w) :: M), A, B. cbn [map fst snd app]. split; [constructor; exact P1|]. split; [constructor; exact P2|]. split; [|split].
        * intros x0 w0 [[= <- <-]|Hin]; [exists y; split; now left|]. destruct (H1 _ _ Hin) as (y0 & ? & ?). exists y0. split; now right.
        * intros x0 Hin. destruct (H2 _ Hin) as (y0 & ? & ?). exists y0. split; now right.
        * intros x0 Hin. destruct (H3 _ Hin) as (y0 & ? & ?). exists y0. split; now right.
      + exists M, (x :: A), B. split; [eapply perm_trans; [apply perm_skip; exact P1|]; apply Permutation_middle|]. split; [exact P2|]. split; [|split].
        * intros x0 w0 Hin. destruct (H1 _ _ Hin) as (y0 & ? & ?). exists y0. split; now right.
        * intros x0 [<-|Hin]; [exists y; split; now left|]. destruct (H2 _ Hin) as (y0 & ? & ?). exists y0. split; now right.
        * intros x0 Hin. destruct (H3 _ Hin) as (y0 & ? & ?). exists y0. split; now right.
      + exists M, A, (w :: B). split; [exact P1|]. split; [eapply perm_trans; [apply perm_skip; exact P2|]; apply Permutation_middle|]. split; [|split].
        * intros x0 w0 Hin. destruct (H1 _ _ Hin) as (y0 & ? & ?). exists y0. split; now right.
        * intros x0 Hin. destruct (H2 _ Hin) as (y0 & ? & ?). exists y0. split; now right.
        * intros x0 [<-|Hin]; [exists y; split; now left|]. destruct (H3 _ Hin) as (y0 & ? & ?). exists y0. split; now right.
      + exists M, A, B. split; [exact P1|]. split; [exact P2|]. split; [|split].
        * intros x0 w0 Hin. destruct (H1 _ _ Hin) as (y0 & ? & ?). exists y0. split; now right.
        * intros x0 Hin. destruct (H2 _ Hin) as (y0 & ? & ?). exists y0. split; now right.
        * intros x0 Hin. destruct (H3 _ Hin) as (y0 & ? & ?). exists y0. split; now right.
  Qed.
  Lemma matching_comp (R1 : X -> Y -> Prop) (P1 : X -> Prop) (Q1 : Y -> Prop) (R2 : Y -> W -> Prop) (P2 : Y -> Prop) (Q2 : W -> Prop) l1 l2 l3 :
    matching R1 P1 Q1 l1 l2 -> matching R2 P2 Q2 l2 l3 ->
    matching (fun x w => exists y, R1 x y /\ R2 y w) (fun x => P1 x \/ exists y, R1 x y /\ P2 y) (fun w => Q2 w \/ exists y, R2 y w /\ Q1 y) l1 l3.
  Proof.
    intros (M1 & U1 & V1 & A1 & A2 & A3 & A4 & A5) (M2 & U2 & V2 & B1 & B2 & B3 & B4 & B5).
    pose (T1 := map (fun p : X * Y => (Some (fst p), snd p)) M1 ++ map (fun y => (@None X, y)) V1).
    pose (T2 := map (fun p : Y * W => (fst p, Some (snd p))) M2 ++ map (fun y => (y, @None W)) U2).
    assert (E1 : map snd T1 = map snd M1 ++ V1) by (unfold T1; rewrite map_app, !map_map; cbn [snd]; now rewrite map_id).
    assert (E2 : map fst T2 = map fst M2 ++ U2) by (unfold T2; rewrite map_app, !map_map; cbn [fst]; now rewrite map_id).
    assert (HP : Permutation (map snd T1) (map fst T2)) by (rewrite E1, E2; rewrite <- A2; exact B1).
    apply Permutation_map_inv in HP. destruct HP as (T2' & E & HP).
    destruct (@zip_matched T1 T2' E) as (M & A & B & C1 & C2 & C3 & C4 & C5).
    assert (S1 : somes (map fst T1) = map fst M1).
    { unfold T1. rewrite map_app, !map_map. cbn [fst]. rewrite somes_app, somes_none, somes_some. apply app_nil_r. }
    assert (S2 : Permutation (somes (map snd T2')) (map snd M2)).
    { assert (Ep : Permutation (somes (map snd T2')) (somes (map snd T2))) by (unfold somes; apply Permutation_flat_map, Permutation_map; now symmetry). assert (Eq : somes (map snd T2) = map snd M2) by (unfold T2; rewrite map_app, !map_map; cbn [snd]; rewrite somes_app, somes_none, somes_some; apply app_nil_r). now rewrite <- Eq. }
    assert (I1 : forall x y, In (Some x, y) T1 -> R1 x y).
    { intros x y Hin. apply in_app_iff in Hin. destruct Hin as [Hin|Hin]; apply in_map_iff in Hin; destruct Hin as (p & Ep & Hp); [|discriminate]. injection Ep as <- <-. apply A3. now rewrite <- surjective_pairing. }
    assert (I1' : forall y, In (None, y) T1 -> Q1 y).
    { intros y Hin. apply in_app_iff in Hin. destruct Hin as [Hin|Hin]; apply in_map_iff in Hin; destruct Hin as (p & Ep & Hp); [discriminate|]. injection Ep as <-. auto. }
    assert (I2 : forall y w, In (y, Some w) T2' -> R2 y w).
    { intros y w Hin. apply (Permutation_in _ (Permutation_sym HP)) in Hin. apply in_app_iff in Hin. destruct Hin as [Hin|Hin]; apply in_map_iff in Hin; destruct Hin as (p & Ep & Hp); [|discriminate]. injection Ep as <- <-. apply B3. now rewrite <- surjective_pairing. }
    assert (I2' : forall y, In (y, None) T2' -> P2 y).
    { intros y Hin. apply (Permutation_in _ (Permutation_sym HP)) in Hin. apply in_app_iff in Hin. destruct Hin as [Hin|Hin]; apply in_map_iff in Hin; destruct Hin as (p & Ep & Hp); [discriminate|]. injection Ep as <-. auto. }
    exists M, (A ++ U1), (B ++ V2). split; [|split; [|split; [|split]]].
    - rewrite A1, <- S1, C1. now rewrite app_assoc.
    - rewrite B2, <- S2, C2. now rewrite app_assoc.
    - intros x w Hin. destruct (C3 _ _ Hin) as (y & Y1 & Y2). exists y. auto.
    - intros x Hin. apply in_app_iff in Hin. destruct Hin as [Hin|Hin]; [|auto]. right. destruct (C4 _ Hin) as (y & Y1 & Y2). exists y. auto.
    - intros w Hin. apply in_app_iff in Hin. destruct Hin as [Hin|Hin]; [|auto]. right. destruct (C5 _ Hin) as (y & Y1 & Y2). exists y. auto.
  Qed.
End Zip.
Lemma matching_weaken {X Y} (R R' : X -> Y -> Prop) (P P' : X -> Prop) (Q Q' : Y -> Prop) l l' :
  (forall x y, R x y -> R' x y) -> (forall x, P x -> P' x) -> (forall y, Q y -> Q' y) -> matching R P Q l l' -> matching R' P' Q' l l'.
Proof. intros H1 H2 H3 (M & U & V & A1 & A2 & A3 & A4 & A5). exists M, U, V. split; auto. split; auto. Qed.
Lemma matching_perm {X Y} (R : X -> Y -> Prop) (P : X -> Prop) (Q : Y -> Prop) l l' k k' :
  Permutation l k -> Permutation l' k' -> matching R P Q l l' -> matching R P Q k k'.
Proof. intros H1 H2 (M & U & V & A1 & A2 & A3 & A4 & A5). exists M, U, V. rewrite <- H1, <- H2. split; auto. Qed.
Lemma matching_sym {X Y} (R : X -> Y -> Prop) (P : X -> Prop) (Q : Y -> Prop) l l' : matching R P Q l l' -> matching (fun y x => R x y) Q P l' l.
Proof.
  intros (M & U & V & A1 & A2 & A3 & A4 & A5). exists (map (fun p => (snd p, fst p)) M), V, U. rewrite !map_map. cbn [fst snd]. split; auto. split; auto. split; [|auto].
  intros y x Hin. apply in_map_iff in Hin. destruct Hin as ([a b] & [= <- <-] & Hin). auto.
Qed.
Lemma matching_unfilter {X Y X' Y'} (f : X' -> X) (g : Y' -> Y) (p : X' -> bool) (p' : Y' -> bool) (R : X -> Y -> Prop) (P : X -> Prop) (Q : Y -> Prop) l l' :
  (forall x, p x = false -> P (f x)) -> (forall y, p' y = false -> Q (g y)) -> matching R P Q (map f (filter p l)) (map g (filter p' l')) -> matching R P Q (map f l) (map g l').
Proof.
  intros H1 H2 (M & U & V & A1 & A2 & A3 & A4 & A5).
  assert (Hs : forall T S (h : T -> S) (c : T -> bool) k, Permutation (map h k) (map h (filter c k) ++ map h (filter (fun x => negb (c x)) k))).
  { intros T S h c k. rewrite <- map_app. apply Permutation_map. induction k as [|a k IH]; auto. cbn [filter]. destruct (c a); cbn [negb app]; [now constructor|]. rewrite <- Permutation_middle. now constructor. }
  exists M, (U ++ map f (filter (fun x => negb (p x)) l)), (V ++ map g (filter (fun x => negb (p' x)) l')). split; [|split; [|split; [|split]]]; auto.
  - rewrite (Hs _ _ f p l), A1. now rewrite app_assoc.
  - rewrite (Hs _ _ g p' l'), A2. now rewrite app_assoc.
  - intros x Hin. apply in_app_iff in Hin. destruct Hin as [Hin|Hin]; auto. apply in_map_iff in Hin. destruct Hin as (a & <- & Ha). apply filter_In in Ha. destruct Ha as [_ Ha]. apply H1. now destruct (p a).
  - intros x Hin. apply in_app_iff in Hin. destruct Hin as [Hin|Hin]; auto. apply in_map_iff in Hin. destruct Hin as (a & <- & Ha). apply filter_In in Ha. destruct Ha as [_ Ha]. apply H2. now destruct (p' a).
Qed.
(** Two filtered images of one list *)
Lemma matching_images {T X Y} (f : T -> X) (g : T -> Y) (p : X -> bool) (p' : Y -> bool) (R : X -> Y -> Prop) (P : X -> Prop) (Q : Y -> Prop) (l : list T) :
  (forall t, In t l -> p (f t) = true -> p' (g t) = true -> R (f t) (g t)) ->
  (forall t, In t l -> p (f t) = true -> p' (g t) = false -> P (f t)) -> (forall t, In t l -> p (f t) = false -> p' (g t) = true -> Q (g t)) ->
  matching R P Q (filter p (map f l)) (filter p' (map g l)).
Proof.
  induction l as [|t l IH]; intros H1 H2 H3; [exists [], [], []; split; [constructor|]; split; [constructor|]; split; [|split]; intros; contradiction|].
  destruct IH as (M & U & V & A1 & A2 & A3 & A4 & A5); [intros; apply H1; auto; now right|intros; apply H2; auto; now right|intros; apply H3; auto; now right|].
  cbn [map filter]. pose proof (or_introl eq_refl : In t (t :: l)) as Ht. specialize (H1 t Ht). specialize (H2 t Ht). specialize (H3 t Ht). destruct (p (f t)), (p' (g t)).
  - exists ((f t, g t) :: M), U, V. cbn [map fst snd app]. split; [now constructor|]. split; [now constructor|]. split; [|auto]. intros x y [[= <- <-]|Hin]; auto.
  - exists M, (f t :: U), V. split; [rewrite <- Permutation_middle; now constructor|]. split; auto. split; auto. split; auto. intros x [<-|Hin]; auto.
  - exists M, U, (g t :: V). split; auto. split; [rewrite <- Permutation_middle; now constructor|]. split; auto. split; auto. intros x [<-|Hin]; auto.
  - exists M, U, V. auto.
Qed.

(** Asymmetric closeness, which adds up along a path *)
Section Tol.
  Local Open Scope Z_scope.
  Definition near (lo hi x y : Z) : Prop := x - lo <= y <= x + hi.
  Definition tol (lo hi cut : Z) (l l' : list (Z * Z)) : Prop :=
    matching (fun p p' => near lo hi (fst p) (fst p') /\ near lo hi (snd p) (snd p')) (fun p => snd p - fst p <= lo + hi + cut) (fun p => snd p - fst p <= lo + hi + cut) l l'.
  Definition tol_births (lo hi : Z) (l l' : list Z) : Prop := matching (near lo hi) (fun _ => False) (fun _ => False) l l'.
  Lemma tol_comp lo hi cut lo' hi' cut' l1 l2 l3 : 0 <= lo + hi -> 0 <= lo' + hi' -> 0 <= cut -> 0 <= cut' -> tol lo hi cut l1 l2 -> tol lo' hi' cut' l2 l3 -> tol (lo + lo') (hi + hi') (cut + cut') l1 l3.
  Proof.
    intros L1 L2 C1 C2 H1 H2. eapply matching_weaken; [| | |exact (matching_comp H1 H2)]; cbv beta.
    - intros x w (y & Hx & Hy). unfold near in *. lia.
    - intros x [Hx|(y & Hx & Hy)]; unfold near in *; lia.
    - intros x [Hx|(y & Hx & Hy)]; unfold near in *; lia.
  Qed.
  Lemma tol_births_comp lo hi lo' hi' l1 l2 l3 : tol_births lo hi l1 l2 -> tol_births lo' hi' l2 l3 -> tol_births (lo + lo') (hi + hi') l1 l3.
  Proof.
    intros H1 H2. eapply matching_weaken; [| | |exact (matching_comp H1 H2)]; cbv beta.
    - intros x w (y & Hx & Hy). unfold near in *. lia.
    - intros x [Hx|(y & Hx & Hy)]; auto.
    - intros x [Hx|(y & Hx & Hy)]; auto.
  Qed.
End Tol.
