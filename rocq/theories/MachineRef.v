(** If every coefficient operation of one machine is matched by another, so are the reductions. *)
From Verif Require Import Base Fields Columns Matrices Reduction Machine.
Set Implicit Arguments.

(** Whenever an operation of [A] returns on good coefficients, so does that of [B], with the corresponding result. *)
Record refines (A B : mach) (good : A -> Prop) (f : A -> B) : Prop := Refines {
  r_one : good x_one /\ f x_one = x_one;
  r_add : forall a b o, good a -> good b -> x_add a b = Ok o ->
            (forall c, o = Some c -> good c) /\ x_add (f a) (f b) = Ok (option_map f o);
  r_mul : forall a b c, good a -> good b -> x_mul a b = Ok c -> good c /\ x_mul (f a) (f b) = Ok (f c);
  r_neg : forall a c, good a -> x_neg a = Ok c -> good c /\ x_neg (f a) = Ok (f c);
  r_inv : forall a c, good a -> x_inv a = Ok c -> good c /\ x_inv (f a) = Ok (f c);
  r_fuel : forall a b : A, x_add a b <> NoFuel /\ x_mul a b <> NoFuel /\ x_neg a <> NoFuel /\ x_inv a <> NoFuel
}.

(** [y] returns whenever [x] does, with a related result; if [x] runs out of fuel then so does [y]. *)
Definition simr {X Y : Type} (R : X -> Y -> Prop) (x : res X) (y : res Y) : Prop :=
  match x with Ok a => exists b, y = Ok b /\ R a b | Panic => True | NoFuel => y = NoFuel end.
Lemma sim_intro {X Y} (R : X -> Y -> Prop) x y : x <> NoFuel -> (forall a, x = Ok a -> exists b, y = Ok b /\ R a b) -> simr R x y.
Proof. intros Hn H. destruct x; cbn [simr]; auto. congruence. Qed.
Lemma sim_ok {X Y} (R : X -> Y -> Prop) a b : R a b -> simr R (Ok a) (Ok b).
Proof. intros H. cbn [simr]. eauto. Qed.
Lemma sim_panic {X Y} (R : X -> Y -> Prop) y : simr R Panic y.
Proof. exact I. Qed.
Lemma sim_nofuel {X Y} (R : X -> Y -> Prop) : simr R NoFuel NoFuel.
Proof. reflexivity. Qed.
Lemma sim_bind {X Y X' Y'} (R : X -> Y -> Prop) (R' : X' -> Y' -> Prop) x y f g :
  simr R x y -> (forall a b, R a b -> simr R' (f a) (g b)) -> simr R' (bind x f) (bind y g).
Proof. intros H Hf. destruct x as [a| |]; cbn [simr bind] in *; auto; [|now subst y]. destruct H as (b & -> & Hr). exact (Hf a b Hr). Qed.
Lemma sim_mapM {X Y X' Y'} (R : X -> Y -> Prop) (R' : X' -> Y' -> Prop) f g l l' :
  Forall2 R l l' -> (forall a b, R a b -> simr R' (f a) (g b)) -> simr (Forall2 R') (mapM f l) (mapM g l').
Proof.
  intros H Hf. induction H as [|a b l l' Hab H IH]; cbn [mapM]; [apply sim_ok; constructor|].
  eapply sim_bind; [apply Hf; exact Hab|]. intros u v Huv. eapply sim_bind; [exact IH|]. intros us vs Hs. apply sim_ok. now constructor.
Qed.
Lemma forall2_concat {X Y} (R : X -> Y -> Prop) l l' : Forall2 (Forall2 R) l l' -> Forall2 R (concat l) (concat l').
Proof. induction 1; cbn [concat]; [constructor|now apply Forall2_app]. Qed.
Lemma sim_flat_mapM {X Y X' Y'} (R : X -> Y -> Prop) (R' : X' -> Y' -> Prop) f g l l' :
  Forall2 R l l' -> (forall a b, R a b -> simr (Forall2 R') (f a) (g b)) -> simr (Forall2 R') (flat_mapM f l) (flat_mapM g l').
Proof.
  intros H Hf. unfold flat_mapM. eapply sim_bind; [eapply sim_mapM; [exact H|exact Hf]|]. intros u v Huv. apply sim_ok. now apply forall2_concat.
Qed.
Lemma sim_foldM {X S S'} (R : S -> S' -> Prop) f g (l : list X) s s' :
  R s s' -> (forall s s' a, R s s' -> simr R (f s a) (g s' a)) -> simr R (foldM f l s) (foldM g l s').
Proof.
  intros H Hf. revert s s' H. induction l as [|a l IH]; intros s s' H; cbn [foldM]; [now apply sim_ok|].
  eapply sim_bind; [apply Hf; exact H|]. intros; now apply IH.
Qed.
Lemma sim_self {X} (x : res X) : simr eq x x.
Proof. destruct x; cbn [simr]; eauto. Qed.
Lemma forall2_map {X Y X' Y'} (R : X -> Y -> Prop) (R' : X' -> Y' -> Prop) f g l l' :
  Forall2 R l l' -> (forall a b, R a b -> R' (f a) (g b)) -> Forall2 R' (map f l) (map g l').
Proof. intros H Hf. induction H; cbn [map]; constructor; auto. Qed.

Section Ref.
  Variables (HI : heaps) (U : uniform HI).
  Variables (A B : mach) (good : A -> Prop) (f : A -> B).
  Hypothesis HR : refines A B good f.

  Definition rA (a : A) (b : B) : Prop := good a /\ b = f a.
  Definition rO (a : option A) (b : option B) : Prop := (forall c, a = Some c -> good c) /\ b = option_map f a.
  Definition rE {F R : ordT} (e : entry F R A) (e' : entry F R B) : Prop := good (e_coeff e) /\ e' = emap f e.
  Definition rOE {F R : ordT} (a : option (entry F R A)) (b : option (entry F R B)) : Prop :=
    match a, b with None, None => True | Some e, Some e' => rE e e' | _, _ => False end.
  Definition rT {R : Type} (p : A * R) (q : B * R) : Prop := rA (fst p) (fst q) /\ snd p = snd q.
  Definition rH {F R : ordT} (h : bhcol HI F R A) (k : bhcol HI F R B) : Prop :=
    (forall e, In e (hp_elems (HI F R A) h) -> good (e_coeff e)) /\ k = hmap U F R f h.
  Definition rP {X Y X' Y'} (R : X -> Y -> Prop) (R' : X' -> Y' -> Prop) (p : X * X') (q : Y * Y') : Prop := R (fst p) (fst q) /\ R' (snd p) (snd q).

  Lemma s_one : rA x_one x_one. Proof. destruct (r_one HR) as [H1 H2]. split; auto. Qed.
  Lemma s_mul a b a' b' : rA a a' -> rA b b' -> simr rA (x_mul a b) (x_mul a' b').
  Proof. intros [Ha ->] [Hb ->]. apply sim_intro; [apply (r_fuel HR a b)|]. intros c E. destruct (@r_mul _ _ _ _ HR _ _ _ Ha Hb E) as [Hc Ec]. exists (f c). split; auto. split; auto. Qed.
  Lemma s_neg a a' : rA a a' -> simr rA (x_neg a) (x_neg a').
  Proof. intros [Ha ->]. apply sim_intro; [apply (r_fuel HR a a)|]. intros c E. destruct (@r_neg _ _ _ _ HR _ _ Ha E) as [Hc Ec]. exists (f c). split; auto. split; auto. Qed.
  Lemma s_inv a a' : rA a a' -> simr rA (x_inv a) (x_inv a').
  Proof. intros [Ha ->]. apply sim_intro; [apply (r_fuel HR a a)|]. intros c E. destruct (@r_inv _ _ _ _ HR _ _ Ha E) as [Hc Ec]. exists (f c). split; auto. split; auto. Qed.
  Lemma s_add_opt a a' o o' : rA a a' -> rO o o' -> simr rO (x_add_opt a o) (x_add_opt a' o').
  Proof.
    intros [Ha ->] [Ho ->]. destruct o as [b|]; cbn [x_add_opt option_map].
    - apply sim_intro; [apply (r_fuel HR a b)|]. intros c E. destruct (@r_add _ _ _ _ HR _ _ _ Ha (Ho b eq_refl) E) as [Hc Ec]. eexists. split; [exact Ec|]. split; auto.
    - apply sim_ok. split; auto. intros c [= <-]. exact Ha.
  Qed.
  Lemma s_scale {F R : ordT} (e : entry F R A) e' m m' : rE e e' -> rA m m' -> simr rE (x_scale e m) (x_scale e' m').
  Proof.
    intros [He ->] Hm. unfold x_scale. eapply sim_bind; [apply s_mul; [split; [exact He|reflexivity]|exact Hm]|].
    intros c c' [Hc ->]. apply sim_ok. split; auto.
  Qed.

  Section Col.
    Context {F R : ordT}.
    Lemma s_empty : rH (empty_bhcol HI F R A) (empty_bhcol HI F R B).
    Proof. split; [|symmetry; apply hmap_empty]. intros e He. unfold empty_bhcol in He. rewrite hp_elems_empty in He. destruct He. Qed.
    Lemma s_push h k (e : entry F R A) e' : rH h k -> rE e e' -> rH (add_entry h e) (add_entry k e').
    Proof.
      intros [Hh ->] [He ->]. split; [|symmetry; apply hmap_push]. intros x Hx. unfold add_entry in Hx.
      apply (Permutation_in _ (hp_elems_push _ _ _)) in Hx. destruct Hx as [<-|Hx]; auto.
    Qed.
    Lemma s_add_entries (es : list (entry F R A)) es' h k : rH h k -> Forall2 rE es es' -> rH (add_entries h es) (add_entries k es').
    Proof. intros Hh H. revert h k Hh. induction H as [|e e' es es' He H IH]; intros h k Hh; cbn [add_entries fold_left]; auto. apply IH. now apply s_push. Qed.
    Lemma s_pop (h : bhcol HI F R A) k : rH h k ->
      match hp_pop (HI F R A) h, hp_pop (HI F R B) k with
      | None, None => True
      | Some (e, h'), Some (e', k') => rE e e' /\ rH h' k'
      | _, _ => False
      end.
    Proof.
      intros [Hh ->]. rewrite hmap_pop. destruct (hp_pop (HI F R A) h) as [[e h']|] eqn:E; cbn [option_map fst snd]; auto.
      apply hp_pop_some in E. destruct E as [Hp _]. split; split; auto.
      - apply Hh. apply (Permutation_in _ (Permutation_sym Hp)). simpl; auto.
      - intros x Hx. apply Hh. apply (Permutation_in _ (Permutation_sym Hp)). simpl; auto.
    Qed.
    Lemma s_peek (h : bhcol HI F R A) k : rH h k -> rOE (hp_peek (HI F R A) h) (hp_peek (HI F R B) k).
    Proof.
      intros H. apply s_pop in H. rewrite !hp_peek_pop. destruct (hp_pop (HI F R A) h) as [[e h']|], (hp_pop (HI F R B) k) as [[e' k']|]; cbn [option_map fst rOE]; tauto.
    Qed.
    Lemma s_len (h : bhcol HI F R A) (k : bhcol HI F R B) : rH h k -> length (elems h) = length (elems k).
    Proof. intros [_ ->]. unfold elems. rewrite hmap_elems, map_length. reflexivity. Qed.

    Lemma s_pop_loop fuel (h : bhcol HI F R A) k wi ws ws' wf : rH h k -> rO ws ws' ->
      simr (rP rOE rH) (x_pop_loop fuel h wi ws wf) (x_pop_loop fuel k wi ws' wf).
    Proof.
      revert h k wi ws ws' wf. induction fuel as [|fuel IH]; intros h k wi ws ws' wf Hh Hw; cbn [x_pop_loop]; [apply sim_nofuel|].
      assert (Hrep : rOE (option_map (fun c => Entry wf wi c) ws) (option_map (fun c => Entry wf wi c) ws')).
      { destruct Hw as [H1 ->]. destruct ws; cbn; auto. split; auto. }
      pose proof (s_peek Hh) as Hk. destruct (hp_peek (HI F R A) h) as [nx|], (hp_peek (HI F R B) k) as [nx'|]; cbn [rOE] in Hk; try contradiction.
      2:{ apply sim_ok. split; auto. }
      assert (Er : e_row nx' = e_row nx /\ e_fil nx' = e_fil nx) by (destruct Hk as [_ ->]; split; reflexivity). destruct Er as [-> ->].
      assert (Hstep : forall wi ws ws' wf, rO ws ws' -> simr (rP rOE rH)
        (do (ne, h') <- unwrap (hp_pop (HI F R A) h); do w <- x_add_opt (e_coeff ne) ws; x_pop_loop fuel h' wi w wf)
        (do (ne, h') <- unwrap (hp_pop (HI F R B) k); do w <- x_add_opt (e_coeff ne) ws'; x_pop_loop fuel h' wi w wf)).
      { clear wi ws ws' wf Hw Hrep. intros wi ws ws' wf Hw. pose proof (s_pop Hh) as Hp.
        destruct (hp_pop (HI F R A) h) as [[e h']|], (hp_pop (HI F R B) k) as [[e' k']|]; try contradiction; cbn [unwrap bind]; [|apply sim_panic].
        destruct Hp as [[He ->] Hh']. eapply sim_bind; [apply s_add_opt; [split; [exact He|reflexivity]|exact Hw]|]. intros; now apply IH. }
      destruct (negb (oeqb (e_row nx) wi)).
      - destruct Hw as [H1 ->]. destruct ws as [w|]; cbn [option_map] in *; [apply sim_ok; split; auto|]. apply Hstep. split; auto; discriminate.
      - destruct ws as [w|], ws' as [w'|]; try (destruct Hw as [_ Hw]; discriminate Hw); apply Hstep; exact Hw.
    Qed.
    Lemma s_pop_pivot (h : bhcol HI F R A) k : rH h k -> simr (rP rOE rH) (x_pop_pivot h) (x_pop_pivot k).
    Proof.
      intros Hh. unfold x_pop_pivot. pose proof (s_pop Hh) as Hp.
      destruct (hp_pop (HI F R A) h) as [[e h']|], (hp_pop (HI F R B) k) as [[e' k']|]; try contradiction; [|apply sim_ok; split; auto; exact I].
      destruct Hp as [[He ->] Hh']. rewrite <- (s_len Hh'). apply s_pop_loop; auto. split; auto. intros c [= <-]. exact He.
    Qed.
    Lemma s_clone (h : bhcol HI F R A) k : rH h k -> simr (rP rOE rH) (x_clone_pivot h) (x_clone_pivot k).
    Proof.
      intros Hh. unfold x_clone_pivot. eapply sim_bind; [apply s_pop_pivot; exact Hh|]. intros [o h'] [o' k'] [Ho Hh']. cbn [fst snd] in *.
      destruct o as [e|], o' as [e'|]; try contradiction; apply sim_ok; split; auto. cbn [snd]. now apply s_push.
    Qed.
    Lemma s_drain_loop fuel (h : bhcol HI F R A) k : rH h k -> simr (rP (Forall2 rE) rH) (x_drain_loop fuel h) (x_drain_loop fuel k).
    Proof.
      revert h k. induction fuel as [|fuel IH]; intros h k Hh; cbn [x_drain_loop]; [apply sim_nofuel|].
      eapply sim_bind; [apply s_pop_pivot; exact Hh|]. intros [o h'] [o' k'] [Ho Hh']. cbn [fst snd] in *.
      destruct o as [e|], o' as [e'|]; try contradiction; [|apply sim_ok; split; auto; constructor].
      eapply sim_bind; [apply IH; exact Hh'|]. intros [es h2] [es' k2] [Hs H2]. apply sim_ok. split; auto. constructor; auto.
    Qed.
    Lemma s_drain (h : bhcol HI F R A) k : rH h k -> simr (rP (Forall2 rE) rH) (x_drain_sorted h) (x_drain_sorted k).
    Proof. intros Hh. unfold x_drain_sorted. rewrite <- (s_len Hh). now apply s_drain_loop. Qed.
  End Col.

  (** *** matrices *)
  Definition col_sim {C R : ordT} (m : xoracle A C R) (m' : xoracle B C R) : Prop := forall c, simr (Forall2 rT) (m c) (m' c).
  Definition mat_sim {C R F : ordT} (m : xmatrix A C R F) (m' : xmatrix B C R F) : Prop :=
    col_sim (x_col m) (x_col m') /\ (forall r, x_fil m r = x_fil m' r) /\ (forall c, simr (Forall2 rE) (x_colf m c) (x_colf m' c)).
  Lemma s_default {C R F : ordT} (m : xoracle A C R) (m' : xoracle B C R) (fil fil' : R -> res F) :
    col_sim m m' -> (forall r, fil r = fil' r) -> mat_sim (xm_default m fil) (xm_default m' fil').
  Proof.
    intros H Hf. split; [exact H|]. split; [exact Hf|]. intros c. cbn [xm_default x_colf]. unfold x_default_colf. eapply sim_bind; [apply H|].
    intros l l' Hl. eapply sim_mapM; [exact Hl|]. intros [k r] [k' r'] [Hk Hr]. cbn [fst snd] in *. subst r'. rewrite <- Hf.
    eapply sim_bind; [apply sim_self|]. intros g g' <-. apply sim_ok. destruct Hk as [Hk ->]. split; auto.
  Qed.
  Lemma s_ref {C R F : ordT} (m : xmatrix A C R F) m' : mat_sim m m' -> mat_sim (x_ref m) (x_ref m').
  Proof. intros (H1 & H2 & _). now apply s_default. Qed.
  Lemma s_trivial {C R : ordT} (m : xoracle A C R) m' : col_sim m m' -> mat_sim (x_trivial m) (x_trivial m').
  Proof. intros H. now apply s_default. Qed.
  Lemma s_build {C R F : ordT} (m : xmatrix A C R F) m' c : mat_sim m m' -> simr rH (x_build HI m c) (x_build HI m' c).
  Proof. intros (_ & _ & H). unfold x_build. eapply sim_bind; [apply H|]. intros es es' Hs. apply sim_ok. apply s_add_entries; auto. apply s_empty. Qed.
  Lemma s_col_product {C R : ordT} (m : xoracle A C R) m' l l' : col_sim m m' -> Forall2 rT l l' -> simr (Forall2 rT) (x_col_product m l) (x_col_product m' l').
  Proof.
    intros H Hl. eapply sim_flat_mapM; [exact Hl|]. intros [k c] [k' c'] [Hk Hc]. cbn [fst snd] in *. subst c'.
    eapply sim_bind; [apply H|]. intros u v Huv. eapply sim_mapM; [exact Huv|]. intros [k2 r] [k2' r'] [Hk2 Hr]. cbn [fst snd] in *. subst r'.
    eapply sim_bind; [apply s_mul; [exact Hk2|exact Hk]|]. intros w w' Hw. apply sim_ok. split; auto.
  Qed.
  Lemma s_product {C J R : ordT} (l : xoracle A J R) l' (r : xoracle A C J) r' : col_sim l l' -> col_sim r r' -> col_sim (x_product l r) (x_product l' r').
  Proof. intros Hl Hr c. unfold x_product. eapply sim_bind; [apply Hr|]. intros; now apply s_col_product. Qed.
  Lemma s_product_f {C J R F : ordT} (l : xmatrix A J R F) l' (r : xoracle A C J) r' : mat_sim l l' -> col_sim r r' -> mat_sim (x_product_f l r) (x_product_f l' r').
  Proof.
    intros (H1 & H2 & H3) Hr. split; [now apply s_product|]. split; [exact H2|]. intros c. cbn [x_product_f x_colf]. eapply sim_bind; [apply Hr|].
    intros u v Huv. eapply sim_flat_mapM; [exact Huv|]. intros [k j] [k' j'] [Hk Hj]. cbn [fst snd] in *. subst j'.
    eapply sim_bind; [apply H3|]. intros es es' Hs. eapply sim_mapM; [exact Hs|]. intros e e' [He ->].
    eapply sim_bind; [apply s_mul; [split; [exact He|reflexivity]|exact Hk]|]. intros w w' [Hw ->]. apply sim_ok. split; auto.
  Qed.

  (** *** hash maps *)
  Definition rM {C : ordT} {V W} (RV : V -> W -> Prop) (m : kmap C V) (m' : kmap C W) : Prop := Forall2 (fun p q => fst p = fst q /\ RV (snd p) (snd q)) m m'.
  Lemma s_get {C : ordT} {V W} (RV : V -> W -> Prop) (m : kmap C V) (m' : kmap C W) c : rM RV m m' ->
    match map_get c m, map_get c m' with None, None => True | Some v, Some w => RV v w | _, _ => False end.
  Proof.
    induction 1 as [|[k v] [k' w] m m' [Hk Hv] H IH]; cbn [map_get]; auto. cbn [fst snd] in *. subst k'. destruct (oeqb k c); auto.
  Qed.
  Lemma s_unwrap_get {C : ordT} {V W} (RV : V -> W -> Prop) (m : kmap C V) (m' : kmap C W) c : rM RV m m' -> simr RV (unwrap (map_get c m)) (unwrap (map_get c m')).
  Proof. intros H. apply (s_get c) in H. destruct (map_get c m), (map_get c m'); try contradiction; cbn [unwrap]; [now apply sim_ok|apply sim_panic]. Qed.
  Lemma s_insert {C : ordT} {V W} (RV : V -> W -> Prop) (m : kmap C V) (m' : kmap C W) c v w : rM RV m m' -> RV v w -> rM RV (map_insert c v m) (map_insert c w m').
  Proof.
    intros H Hv. unfold map_insert. constructor; [split; auto|]. induction H as [|[k x] [k' y] m m' [Hk Hx] H IH]; cbn [filter]; [constructor|]. cbn [fst snd] in *. subst k'.
    destruct (negb (oeqb k c)); auto.
  Qed.
  Lemma s_mem {C : ordT} {V W} (RV : V -> W -> Prop) (m : kmap C V) (m' : kmap C W) c : rM RV m m' -> map_mem c m = map_mem c m'.
  Proof. intros H. apply (s_get c) in H. unfold map_mem. destruct (map_get c m), (map_get c m'); try contradiction; auto. Qed.
  Lemma s_mapvec {C R : ordT} (m : kmap C (list (A * R))) m' : rM (Forall2 rT) m m' -> col_sim (x_mapvec m) (x_mapvec m').
  Proof. intros H c. unfold x_mapvec. now apply s_unwrap_get. Qed.
  Lemma s_terms {F R : ordT} (es : list (entry F R A)) es' : Forall2 rE es es' -> Forall2 rT (map e_term es) (map e_term es').
  Proof. intros H. eapply forall2_map; [exact H|]. intros e e' [He ->]. split; [split; auto|reflexivity]. Qed.

  (** *** the standard algorithm *)
  Section Algo.
    Context {C F : ordT}.
    Definition rV : @x_vmap A C -> @x_vmap B C -> Prop := rM (Forall2 rT).
    Definition rL : @x_low A C -> @x_low B C -> Prop := rM (fun p q => fst p = fst q /\ rA (snd p) (snd q)).
    Variables (D : xmatrix A C C F) (D' : xmatrix B C C F).
    Hypothesis HD : mat_sim D D'.

    Lemma s_scale_all {G R : ordT} (es : list (entry G R A)) es' m m' : Forall2 rE es es' -> rA m m' -> simr (Forall2 rE) (mapM (fun e => x_scale e m) es) (mapM (fun e => x_scale e m') es').
    Proof. intros H Hm. eapply sim_mapM; [exact H|]. intros; now apply s_scale. Qed.
    Lemma s_standard_loop fuel v v' low low' (r : bhcol HI F C A) r' (w : bhcol HI unit_ord C A) w' : rV v v' -> rL low low' -> rH r r' -> rH w w' ->
      simr (rP rH rH) (x_standard_loop HI fuel D v low r w) (x_standard_loop HI fuel D' v' low' r' w').
    Proof.
      intros Hv Hl. revert r r' w w'. induction fuel as [|fuel IH]; intros r r' w w' Hr Hw; cbn [x_standard_loop]; [apply sim_nofuel|].
      eapply sim_bind; [apply s_pop_pivot; exact Hr|]. intros [o h] [o' k] [Ho Hh]. cbn [fst snd] in *.
      destruct o as [p|], o' as [p'|]; try contradiction; [|apply sim_ok; split; auto].
      assert (Hh' : rH (add_entry h p) (add_entry k p')) by now apply s_push. cbn [rOE] in Ho. destruct Ho as [Hp ->]. cbn [emap e_row e_coeff].
      pose proof (s_get (e_row p) Hl) as Hg. destruct (map_get (e_row p) low) as [[j a]|], (map_get (e_row p) low') as [[j' a']|]; try contradiction; [|apply sim_ok; split; auto].
      cbn [fst snd] in Hg. destruct Hg as [<- Ha].
      eapply sim_bind; [apply s_neg; split; [exact Hp|reflexivity]|]. intros np np' Hnp. eapply sim_bind; [apply s_inv; exact Ha|]. intros ia ia' Hia.
      eapply sim_bind; [apply s_mul; [exact Hnp|exact Hia]|]. intros cm cm' Hcm.
      assert (Hvm : mat_sim (x_trivial (x_mapvec v)) (x_trivial (x_mapvec v'))) by (apply s_trivial; now apply s_mapvec).
      eapply sim_bind; [apply (s_product_f (s_ref HD) (proj1 (s_ref Hvm)))|]. intros es es' Hs. eapply sim_bind; [apply (s_scale_all Hs Hcm)|]. intros fs fs' Hfs.
      eapply sim_bind; [apply Hvm|]. intros vs vs' Hvs. eapply sim_bind; [apply (s_scale_all Hvs Hcm)|]. intros gs gs' Hgs.
      apply IH; apply s_add_entries; auto.
    Qed.
    Lemma s_standard_step fuel b st st' i : rP rV rL st st' -> simr (rP rV rL) (x_standard_step HI fuel D b st i) (x_standard_step HI fuel D' b st' i).
    Proof.
      destruct st as [v low], st' as [v' low']. intros [Hv Hl]. cbn [fst snd] in *. unfold x_standard_step. eapply sim_bind; [apply sim_self|]. intros c c' <-.
      eapply sim_bind; [apply s_build; exact HD|]. intros r r' Hr.
      eapply sim_bind; [apply s_standard_loop; [exact Hv|exact Hl|exact Hr|]|].
      { unfold add_tuple. apply s_push; [apply s_empty|]. destruct s_one as [H1 H2]. split; auto. cbn [entry_of_tuple emap e_fil e_row e_coeff]. now rewrite H2. }
      intros [r2 v2] [r2' v2'] [Hr2 Hv2]. cbn [fst snd] in *. eapply sim_bind; [apply s_pop_pivot; exact Hr2|]. intros [o h] [o' k] [Ho Hh]. cbn [fst snd] in *.
      eapply sim_bind; [apply s_drain; exact Hv2|]. intros [es h2] [es' k2] [Hes _]. cbn [fst snd] in *. apply sim_ok. split; cbn [fst snd].
      - apply s_insert; auto. now apply s_terms.
      - destruct o as [p|], o' as [p'|]; try contradiction; auto. destruct Ho as [Hp ->]. apply s_insert; auto. split; auto. split; auto.
    Qed.
    Lemma s_standard_algo fuel b : simr rV (x_standard_algo HI fuel D b) (x_standard_algo HI fuel D' b).
    Proof.
      unfold x_standard_algo. eapply sim_bind; [apply (@sim_foldM _ _ _ (rP rV rL)); [split; constructor|intros; now apply s_standard_step]|].
      intros [v low] [v' low'] [Hv _]. now apply sim_ok.
    Qed.
    Lemma s_read_off b v v' ro : rV v v' -> simr eq (x_read_off_diagram HI D b v ro) (x_read_off_diagram HI D' b v' ro).
    Proof.
      intros Hv. unfold x_read_off_diagram. apply sim_foldM; auto. intros dg dg' i <-. unfold x_read_off_step. eapply sim_bind; [apply sim_self|]. intros c c' <-.
      eapply sim_bind; [apply s_build; apply s_product_f; [apply s_ref; exact HD|apply s_mapvec; exact Hv]|]. intros r r' Hr.
      eapply sim_bind; [apply s_pop_pivot; exact Hr|]. intros [o h] [o' k] [Ho Hh]. cbn [fst snd] in *.
      eapply sim_bind; [apply s_pop_pivot; exact Hh|]. intros [o2 h2] [o2' k2] _. apply sim_ok.
      destruct o as [p|], o' as [p'|]; try contradiction; auto. destruct Ho as [_ ->]. reflexivity.
    Qed.
    (** *** clearing *)
    Definition rRC (x : redcol A C) (y : redcol B C) : Prop :=
      match x, y with Cleared j, Cleared j' => j = j' | Reduced l, Reduced l' => Forall2 rT l l' | _, _ => False end.
    Definition rR : @x_rc A C -> @x_rc B C -> Prop := rM rRC.
    Lemma s_crm_fuel fuel (m : xoracle A C C) m' rc rc' c : col_sim m m' -> rR rc rc' -> simr (Forall2 rT) (x_crm_fuel fuel m rc c) (x_crm_fuel fuel m' rc' c).
    Proof.
      intros Hm Hr. revert c. induction fuel as [|fuel IH]; intros c; cbn [x_crm_fuel]; [apply sim_nofuel|].
      eapply sim_bind; [apply s_unwrap_get; exact Hr|]. intros [j|l] [j'|l'] H; cbn [rRC] in H; try contradiction.
      - subst j'. eapply sim_bind; [apply IH|]. intros; now apply s_col_product.
      - apply sim_ok. apply Forall2_app; auto. constructor; [|constructor]. split; [apply s_one|reflexivity].
    Qed.
    Lemma s_crm (m : xoracle A C C) m' rc rc' : col_sim m m' -> rR rc rc' -> col_sim (x_crm m rc) (x_crm m' rc').
    Proof. intros Hm Hr c. unfold x_crm. assert (El : length rc = length rc') by (clear -Hr; induction Hr; simpl; auto). rewrite El. now apply s_crm_fuel. Qed.
    Lemma s_reduce_column fuel rc rc' low low' (r : bhcol HI F C A) r' (w : bhcol HI unit_ord C A) w' : rR rc rc' -> rL low low' -> rH r r' -> rH w w' ->
      simr (rP rH rH) (x_reduce_column HI fuel D rc low r w) (x_reduce_column HI fuel D' rc' low' r' w').
    Proof.
      intros Hv Hl. revert r r' w w'. induction fuel as [|fuel IH]; intros r r' w w' Hr Hw; cbn [x_reduce_column]; [apply sim_nofuel|].
      eapply sim_bind; [apply s_clone; exact Hr|]. intros [o h] [o' k] [Ho Hh]. cbn [fst snd] in *.
      destruct o as [p|], o' as [p'|]; try contradiction; [|apply sim_ok; split; auto].
      cbn [rOE] in Ho. destruct Ho as [Hp ->]. cbn [emap e_row e_coeff].
      pose proof (s_get (e_row p) Hl) as Hg. destruct (map_get (e_row p) low) as [[j a]|], (map_get (e_row p) low') as [[j' a']|]; try contradiction; [|apply sim_ok; split; auto].
      cbn [fst snd] in Hg. destruct Hg as [<- Ha].
      eapply sim_bind; [apply s_neg; split; [exact Hp|reflexivity]|]. intros np np' Hnp. eapply sim_bind; [apply s_inv; exact Ha|]. intros ia ia' Hia.
      eapply sim_bind; [apply s_mul; [exact Hnp|exact Hia]|]. intros cm cm' Hcm.
      assert (Hvm : mat_sim (x_trivial (x_crm (x_col (x_ref D)) rc)) (x_trivial (x_crm (x_col (x_ref D')) rc'))) by (apply s_trivial; apply s_crm; [apply (s_ref HD)|exact Hv]).
      eapply sim_bind; [apply (s_product_f (s_ref HD) (proj1 (s_ref Hvm)))|]. intros es es' Hs. eapply sim_bind; [apply (s_scale_all Hs Hcm)|]. intros fs fs' Hfs.
      eapply sim_bind; [apply Hvm|]. intros vs vs' Hvs. eapply sim_bind; [apply (s_scale_all Hvs Hcm)|]. intros gs gs' Hgs.
      apply IH; apply s_add_entries; auto.
    Qed.
    Definition rB (x : @xbuilder A C) (y : @xbuilder B C) : Prop := xb_dgm x = xb_dgm y /\ rR (xb_rc x) (xb_rc y).
    Lemma s_clear_step fuel sub st st' i : rP rB rL st st' -> simr (rP rB rL) (x_clear_step HI fuel D sub st i) (x_clear_step HI fuel D' sub st' i).
    Proof.
      destruct st as [bd low], st' as [bd' low']. intros [[Hd Hb] Hl]. cbn [fst snd] in *. unfold x_clear_step. eapply sim_bind; [apply sim_self|]. intros c c' <-.
      rewrite <- (s_mem c Hb). destruct (map_mem c (xb_rc bd)); [apply sim_ok; split; auto; split; auto|].
      eapply sim_bind; [apply s_build; exact HD|]. intros r r' Hr. eapply sim_bind; [apply s_reduce_column; [exact Hb|exact Hl|exact Hr|apply s_empty]|].
      intros [r2 v2] [r2' v2'] [Hr2 Hv2]. cbn [fst snd] in *. unfold x_save_column. rewrite <- Hd. pose proof (s_peek Hr2) as Hp. change (hp_peek (HI F C A) r2) with (peek_pivot r2) in Hp. change (hp_peek (HI F C B) r2') with (peek_pivot r2') in Hp.
      destruct (peek_pivot r2) as [p|], (peek_pivot r2') as [p'|]; try contradiction; (eapply sim_bind; [apply s_drain; exact Hv2|]; intros [es h] [es' k] [Hes _]; cbn [fst snd] in Hes; apply sim_ok; split; cbn [fst snd]; [split; cbn [xb_dgm xb_rc]|]).
      - destruct Hp as [_ ->]. reflexivity.
      - destruct Hp as [_ ->]. cbn [emap e_row]. apply s_insert; [apply s_insert; auto; reflexivity|]. cbn [rRC]. now apply s_terms.
      - destruct Hp as [Hp ->]. cbn [emap e_row e_coeff]. apply s_insert; auto. split; auto. split; auto.
      - reflexivity.
      - apply s_insert; auto. cbn [rRC]. now apply s_terms.
      - exact Hl.
    Qed.
    Lemma s_build_with_diagram fuel sb dims : simr (rP rR eq) (x_build_with_diagram HI fuel D sb dims) (x_build_with_diagram HI fuel D' sb dims).
    Proof.
      unfold x_build_with_diagram. eapply sim_bind; [apply (@sim_foldM _ _ _ rB); [split; [reflexivity|constructor]|]|].
      - intros bd bd' d Hb. unfold x_reduce_dimension. eapply sim_bind; [apply sim_self|]. intros sub sub' <-.
        eapply sim_bind; [apply (@sim_foldM _ _ _ (rP rB rL)); [split; [exact Hb|constructor]|intros; now apply s_clear_step]|]. intros [x low] [x' low'] [Hx _]. now apply sim_ok.
      - intros x x' [Hx1 Hx2]. apply sim_ok. split; auto.
    Qed.
    Lemma s_col_is_cycle rc rc' c : rR rc rc' -> simr eq (x_col_is_cycle HI D rc c) (x_col_is_cycle HI D' rc' c).
    Proof.
      intros Hr. unfold x_col_is_cycle. eapply sim_bind; [apply s_unwrap_get; exact Hr|]. intros [j|l] [j'|l'] H; cbn [rRC] in H; try contradiction; [now apply sim_ok|].
      eapply sim_bind; [apply s_build; apply s_product_f; [apply s_ref; exact HD|apply s_crm; [apply HD|exact Hr]]|]. intros h h' Hh.
      eapply sim_bind; [apply s_pop_pivot; exact Hh|]. intros [o x] [o' x'] [Ho _]. cbn [fst snd] in Ho. apply sim_ok. destruct o, o'; try contradiction; reflexivity.
    Qed.
  End Algo.
  Lemma s_with_diagram {C F : ordT} (D : xmatrix A C C F) D' fuel b ro : mat_sim D D' ->
    simr (rP rV eq) (x_standard_algo_with_diagram HI fuel D b ro) (x_standard_algo_with_diagram HI fuel D' b ro).
  Proof.
    intros HD. unfold x_standard_algo_with_diagram. pose proof (s_ref HD) as HD1. eapply sim_bind; [apply (s_standard_algo HD1)|]. intros v v' Hv.
    eapply sim_bind; [apply (s_read_off HD1); exact Hv|]. intros dg dg' <-. apply sim_ok. split; auto.
  Qed.
End Ref.
