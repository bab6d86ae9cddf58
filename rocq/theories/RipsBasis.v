(** Filtration values and the construction of the bases. *)
From Verif Require Import Base Fields Spec LinAlg Columns ColumnsFacts Matrices SpecMat MatricesFacts ReadOffProofs Rips SpecRips RipsCode RipsFacts.
From Coq Require Import Sorted Lia.
Set Implicit Arguments.

(** ** Maxima *)
Section Max.
  Context {F : ordT}.
  Lemma fold_omax (l : list F) : forall a, (forall x, In x l -> ole x (fold_left omax l a)) /\ ole a (fold_left omax l a) /\
    (fold_left omax l a = a \/ In (fold_left omax l a) l).
  Proof.
    induction l as [|x l IH]; intros a; simpl; [split; [tauto|split; [apply ole_refl|auto]]|].
    destruct (IH (omax a x)) as (H1 & H2 & H3). split; [|split].
    - intros y [<-|Hy]; auto. eapply ole_trans; [apply omax_le_r|]. exact H2.
    - eapply ole_trans; [apply omax_le_l|exact H2].
    - destruct H3 as [->|H3]; auto. destruct (omax_case a x) as [->| ->]; auto.
  Qed.
  Lemma iter_max_spec (l : list F) : l <> [] -> exists m, iter_max l = Some m /\ In m l /\ forall x, In x l -> ole x m.
  Proof.
    destruct l as [|a l]; intros H; [congruence|]. simpl. eexists; split; [reflexivity|].
    destruct (fold_omax l a) as (H1 & H2 & H3). split; [destruct H3; auto|]. intros x [<-|Hx]; auto.
  Qed.
  Lemma omax_eq_l (a b : F) : ole b a -> omax a b = a.
  Proof. intros H. unfold omax. destruct (oleb_spec a b); auto. apply ole_antisym; auto. Qed.
  Lemma omax_eq_r (a b : F) : ole a b -> omax a b = b.
  Proof. intros H. unfold omax. destruct (oleb_spec a b); auto. contradiction. Qed.
End Max.

Section Dist.
  Context {F : ordT} (z : F) (d : list (list F)).
  Notation n := (length d).
  Hypothesis Hsq : wide d.

  Lemma dist_at_ok i j : i < n -> j < n -> dist_at d i j = Ok (dist z d i j).
  Proof.
    intros Hi Hj. unfold dist_at, dist. destruct (index_lt d Hi) as (row & -> & E). cbn [bind].
    assert (Hr : n <= length row) by (apply Hsq; eapply nth_error_In; eauto).
    rewrite (nth_error_nth _ _ [] E). assert (Hj' : j < length row) by lia.
    destruct (index_lt row Hj') as (x & -> & E'). f_equal. symmetry. apply nth_error_nth. auto.
  Qed.

  Theorem max_pairwise_ok s : s <> [] -> Forall (fun v => v < n) s ->
    exists f, max_pairwise_distance d s = Ok f /\ diameter z d s f.
  Proof.
    intros Hne Hb. rewrite Forall_forall in Hb. unfold max_pairwise_distance.
    rewrite (@flat_mapM_pure _ _ _ (fun i => map (fun j => dist z d (nth i s 0) (nth j s 0)) (seq 0 (length s)))).
    - cbn [bind].
      destruct (@iter_max_spec F (flat_map (fun i => map (fun j => dist z d (nth i s 0) (nth j s 0)) (seq 0 (length s))) (seq 0 (length s)))) as (m & E & Hin & Hle).
      { destruct s; [congruence|]. simpl. discriminate. }
      rewrite E. exists m. split; auto. split.
      + apply in_flat_map in Hin. destruct Hin as (i & Hi & Hin). apply in_map_iff in Hin. destruct Hin as (j & Ej & Hj).
        apply in_seq in Hi, Hj. exists (nth i s 0), (nth j s 0). split; [apply nth_In; lia|]. split; [apply nth_In; lia|auto].
      + intros x y Hx Hy. apply Hle. destruct (In_nth s x 0 Hx) as (i & Hi & <-). destruct (In_nth s y 0 Hy) as (j & Hj & <-).
        apply in_flat_map. exists i. split; [apply in_seq; lia|]. apply in_map_iff. exists j. split; auto. apply in_seq. lia.
    - intros i Hi. apply in_seq in Hi. apply mapM_pure. intros j Hj. apply in_seq in Hj.
      destruct (@index_lt _ s i ltac:(lia)) as (x & -> & Ex). destruct (@index_lt _ s j ltac:(lia)) as (y & -> & Ey). cbn [bind].
      rewrite (nth_error_nth _ _ 0 Ex), (nth_error_nth _ _ 0 Ey). apply dist_at_ok; apply Hb; eapply nth_error_In; eauto.
  Qed.
  Lemma diameter_unique s f g : diameter z d s f -> diameter z d s g -> f = g.
  Proof.
    intros ((i & j & Hi & Hj & <-) & H1) ((i' & j' & Hi' & Hj' & <-) & H2). apply ole_antisym; auto.
  Qed.
  Lemma diameter_mono s t f g : incl s t -> diameter z d s f -> diameter z d t g -> ole f g.
  Proof. intros Hi ((i & j & H1 & H2 & <-) & _) (_ & H). auto. Qed.

  (** the value computed along the construction: the largest of zero and the distances from earlier to later vertices *)
  Definition maxl (l : list F) : F := match iter_max l with Some m => m | None => z end.
  Fixpoint uval_rev (r : list nat) : F :=
    match r with
    | [] => z
    | v :: t => match t with [] => z | _ => omax (maxl (map (fun w => dist z d w v) (rev t))) (uval_rev t) end
    end.
  Definition uval (s : list nat) : F := uval_rev (rev s).
  Lemma uval_single v : uval [v] = z. Proof. reflexivity. Qed.
  Lemma uval_snoc s v : s <> [] -> uval (s ++ [v]) = omax (maxl (map (fun w => dist z d w v) s)) (uval s).
  Proof.
    intros H. unfold uval. rewrite rev_app_distr. simpl. destruct (rev s) as [|a r] eqn:E.
    - exfalso. apply H. rewrite <- (rev_involutive s), E. reflexivity.
    - rewrite <- E, rev_involutive. reflexivity.
  Qed.
  Lemma maxl_spec l : l <> [] -> In (maxl l) l /\ forall x, In x l -> ole x (maxl l).
  Proof. intros H. destruct (iter_max_spec H) as (m & E & H1 & H2). unfold maxl. rewrite E. auto. Qed.

  Lemma uval_spec s : ole z (uval s) /\ (forall w v, before s w v -> ole (dist z d w v) (uval s)) /\
    (uval s = z \/ exists w v, before s w v /\ dist z d w v = uval s).
  Proof.
    induction s as [|v s IH] using rev_ind.
    - split; [apply ole_refl|]. split; [|auto]. intros w v (A & B & E & H). destruct A; discriminate.
    - destruct s as [|a s'] eqn:Es; [|rewrite <- Es in *].
      + simpl. split; [apply ole_refl|]. split; [|auto]. intros w x (A & B & E & H). destruct A as [|? [|]]; simpl in H; inversion H; subst; try destruct B; discriminate.
      + assert (Hne : s <> []) by (rewrite Es; discriminate). rewrite uval_snoc by auto. destruct IH as (I1 & I2 & I3).
        destruct (@maxl_spec (map (fun w => dist z d w v) s)) as [M1 M2]; [intros E; apply map_eq_nil in E; auto|].
        assert (Hb : forall w x, before (s ++ [v]) w x <-> before s w x \/ (In w s /\ x = v)).
        { intros w x. rewrite !before_split. split.
          - intros (A & B & E & Hi). destruct (@exists_last _ B) as (B' & y & EB); [destruct B; [destruct Hi|discriminate]|].
            subst B. replace (A ++ w :: B' ++ [y]) with ((A ++ w :: B') ++ [y]) in E by (rewrite <- app_assoc; reflexivity).
            apply app_inj_tail in E. destruct E as [-> ->]. apply in_app_iff in Hi. destruct Hi as [Hi|[->|[]]]; [left; eauto|].
            right. split; auto. apply in_app_iff. simpl; auto.
          - intros [(A & B & -> & Hi)|[Hi ->]].
            + exists A, (B ++ [v]). split; [rewrite <- app_assoc; reflexivity|]. apply in_app_iff. auto.
            + apply in_split in Hi. destruct Hi as (A & B & ->). exists A, (B ++ [v]). split; [rewrite <- app_assoc; reflexivity|]. apply in_app_iff. simpl; auto. }
        split; [eapply ole_trans; [exact I1|apply omax_le_r]|]. split.
        * intros w x Hwx. apply Hb in Hwx. destruct Hwx as [H|[H ->]].
          -- eapply ole_trans; [apply I2; eauto|apply omax_le_r].
          -- eapply ole_trans; [apply M2; apply in_map_iff; eauto|apply omax_le_l].
        * destruct (omax_case (maxl (map (fun w => dist z d w v) s)) (uval s)) as [->| ->].
          -- right. apply in_map_iff in M1. destruct M1 as (w & E & Hw). exists w, v. split; auto. apply Hb. auto.
          -- destruct I3 as [|(w & x & H & E)]; auto. right. exists w, x. split; auto. apply Hb. auto.
  Qed.
  Lemma before_sorted s w v : StronglySorted lt s -> before (s : list nat_ord) w v -> w < v.
  Proof.
    intros Hs. rewrite before_split. intros (A & B & -> & Hi). clear - Hs Hi. induction A as [|a A IH]; cbn [app] in Hs; inversion Hs as [|? ? H1 H2]; subst; auto.
    rewrite Forall_forall in H2. now apply H2.
  Qed.
  Lemma uval_diameter s : rips_matrix z d -> s <> [] -> StronglySorted lt s -> Forall (fun v => v < n) s -> diameter z d s (uval s).
  Proof.
    intros (_ & Hdiag & Hlow) Hne Hso Hb. rewrite Forall_forall in Hb. destruct (uval_spec s) as (U1 & U2 & U3).
    assert (Hs : exists a, In a s) by (destruct s as [|a s]; [congruence|exists a; simpl; auto]). destruct Hs as (a & Ha).
    split.
    - destruct U3 as [->|(w & v & H & E)]; [exists a, a; auto|]. exists w, v. destruct (before_in H). auto.
    - intros i j Hi Hj. destruct (@before_total nat_ord s i j Hi Hj) as [->|[H|H]]; auto.
      + rewrite Hdiag; auto.
      + destruct (Hlow j i) as [Hle|Hle]; [now apply (before_sorted Hso)|now apply Hb| |]; eapply ole_trans; eauto.
  Qed.
End Dist.

(** ** Sorting *)
Section Sort.
  Context {T : ordT}.
  Lemma insert_sorted_perm (x : T) l : Permutation (x :: l) (insert_sorted x l).
  Proof. induction l as [|y l IH]; simpl; auto. destruct (oleb x y); auto. rewrite <- IH. apply perm_swap. Qed.
  Lemma sort_perm (l : list T) : Permutation l (sort_unstable l).
  Proof. induction l as [|x l IH]; simpl; auto. rewrite <- insert_sorted_perm. auto. Qed.
  Lemma insert_sorted_sorted (x : T) l : StronglySorted (@ole T) l -> StronglySorted (@ole T) (insert_sorted x l).
  Proof.
    induction 1 as [|y l H IH Hf]; simpl; [repeat constructor|]. destruct (oleb_spec x y) as [Hle|Hle].
    - constructor; [constructor; auto|]. constructor; auto. rewrite Forall_forall in *. intros w Hw. eapply ole_trans; eauto.
    - constructor; auto. apply Forall_forall. intros w Hw. apply (Permutation_in _ (Permutation_sym (insert_sorted_perm x l))) in Hw.
      destruct Hw as [<-|Hw]; [|rewrite Forall_forall in Hf; auto]. destruct (ole_total x y); [contradiction|auto].
  Qed.
  Lemma sort_sorted (l : list T) : StronglySorted (@ole T) (sort_unstable l).
  Proof. induction l as [|x l IH]; simpl; [constructor|]. apply insert_sorted_sorted. auto. Qed.
  Lemma sort_strict (l : list T) : NoDup l -> StronglySorted (@olt T) (sort_unstable l).
  Proof.
    intros H. apply (Permutation_NoDup (sort_perm l)) in H. pose proof (sort_sorted l) as Hs. induction Hs as [|x m Hm IH Hf]; [constructor|].
    inversion H; subst. constructor; auto. rewrite Forall_forall in *. intros y Hy. pose proof (Hf y Hy) as Hle. apply ole_lt_eq in Hle.
    destruct Hle as [|<-]; auto. contradiction.
  Qed.
End Sort.

(** ** Pushing into the vector of bases *)
Section Push.
  Context {A : Type}.
  Fixpoint push_pure (bases : list (list A)) (k : nat) (x : A) : list (list A) :=
    match bases, k with
    | [], _ => []
    | b :: rest, O => (b ++ [x]) :: rest
    | b :: rest, S k => b :: push_pure rest k x
    end.
  Lemma push_at_ok (bases : list (list A)) k x : k < length bases -> push_at bases k x = Ok (push_pure bases k x).
  Proof.
    revert k. induction bases as [|b r IH]; intros k H; simpl in *; [lia|]. destruct k; auto. rewrite IH by lia. reflexivity.
  Qed.
  Lemma push_at_panic (bases : list (list A)) k x : length bases <= k -> push_at bases k x = Panic.
  Proof. revert k. induction bases as [|b r IH]; intros k H; simpl in *; auto. destruct k; [lia|]. rewrite IH by lia. reflexivity. Qed.
  Lemma push_pure_length bases k x : length (push_pure bases k x) = length bases.
  Proof. revert k. induction bases as [|b r IH]; intros k; simpl; auto. destruct k; simpl; auto. Qed.
  Lemma push_pure_nth bases k x j : j < length bases ->
    nth j (push_pure bases k x) [] = nth j bases [] ++ (if k =? j then [x] else []).
  Proof.
    revert k j. induction bases as [|b r IH]; intros k j H; simpl in *; [lia|].
    destruct k, j; simpl; auto; try (now rewrite app_nil_r). apply IH. lia.
  Qed.
  Definition push_all (bases : list (list A)) (ps : list (nat * A)) : list (list A) :=
    fold_left (fun b p => push_pure b (fst p) (snd p)) ps bases.
  Lemma push_all_length bases ps : length (push_all bases ps) = length bases.
  Proof. unfold push_all. revert bases. induction ps as [|p ps IH]; intros bases; simpl; auto. rewrite IH. apply push_pure_length. Qed.
  Lemma push_all_app bases ps qs : push_all bases (ps ++ qs) = push_all (push_all bases ps) qs.
  Proof. unfold push_all. apply fold_left_app. Qed.
  Lemma push_all_nth bases ps j : j < length bases ->
    nth j (push_all bases ps) [] = nth j bases [] ++ map snd (filter (fun p => fst p =? j) ps).
  Proof.
    unfold push_all. revert bases. induction ps as [|[k x] ps IH]; intros bases H; simpl; [now rewrite app_nil_r|].
    rewrite IH by (rewrite push_pure_length; auto). rewrite push_pure_nth by auto. rewrite <- app_assoc. f_equal. now destruct (k =? j).
  Qed.
End Push.

(** ** The enumeration *)
Section Enum.
  Context {F : ordT} (uw : N) (z : F) (d : list (list F)) (max_dim : nat).
  Notation n := (length d).
  Hypothesis Hsq : wide d.

  Fixpoint ext_list (fuel : nat) (s : list nat) (m : nat) : list (list nat) :=
    match fuel with
    | O => []
    | S fuel => flat_map (fun v => (s ++ [v]) :: (if length s <? max_dim then ext_list fuel (s ++ [v]) v else []))
                  (seq (m + 1) (n - (m + 1)))
    end.
  Definition ent (t : list nat) : nat * (F * N) := (length t - 1, (uval z d t, code n t)).

  Lemma push_all_ent bases t l : push_all bases (ent t :: l) = push_all (push_pure bases (length t - 1) (uval z d t, code n t)) l.
  Proof. reflexivity. Qed.
  Hypothesis Hfit : codes_fit uw n (max_dim + 1).

  Lemma snoc_simplex s m v : simplex n (s ++ [m]) -> m < v -> v < n -> simplex n ((s ++ [m]) ++ [v]).
  Proof.
    intros (_ & Hs & Hb) Hm Hv. split; [intros E; apply app_eq_nil in E; destruct E; discriminate|]. split.
    - apply sorted_app. split; auto. split; [repeat constructor|]. intros x y Hx [<-|[]].
      apply in_app_iff in Hx. destruct Hx as [Hx|[<-|[]]]; auto. apply sorted_app in Hs. destruct Hs as (_ & _ & H). specialize (H x m Hx (or_introl eq_refl)). lia.
    - apply Forall_app. split; auto.
  Qed.

  Lemma add_cofacets_ok : forall fuel s m bases,
    simplex n (s ++ [m]) -> n - m <= fuel -> length (s ++ [m]) <= max_dim -> length bases = max_dim + 1 ->
    add_cofacets uw d max_dim fuel (bases, s ++ [m]) (uval z d (s ++ [m])) =
      Ok (push_all bases (map ent (ext_list fuel (s ++ [m]) m)), s ++ [m]).
  Proof.
    induction fuel as [|fuel IH]; intros s m bases Hsx Hf Hlen Hbl.
    - exfalso. destruct Hsx as (_ & _ & Hb). rewrite Forall_forall in Hb. specialize (Hb m). rewrite in_app_iff in Hb. simpl in Hb. assert (m < n) by auto. lia.
    - cbn [add_cofacets]. rewrite rev_app_distr. cbn [rev app nth_error unwrap bind].
      assert (Hmn : m < n). { destruct Hsx as (_ & _ & Hb). rewrite Forall_forall in Hb. apply Hb. apply in_app_iff; simpl; auto. }
      destruct (Nat.eqb_spec m (n - 1)) as [E|E].
      + cbn [ext_list]. replace (n - (m + 1)) with 0 by lia. reflexivity.
      + cbn [ext_list]. set (S0 := s ++ [m]) in *. replace (length S0 - 1 + 1) with (length S0) by (unfold S0; rewrite app_length; simpl; lia).
        match goal with |- foldM ?f _ _ = _ => set (body := f) end.
        assert (G : forall vs bases, (forall v, In v vs -> m < v < n) -> length bases = max_dim + 1 ->
          foldM body vs (bases, S0) = Ok (push_all bases (map ent (flat_map (fun v => (S0 ++ [v]) :: (if length S0 <? max_dim then ext_list fuel (S0 ++ [v]) v else [])) vs)), S0)).
        { clear bases Hbl. induction vs as [|v vs IHv]; intros bases Hvs Hbl; [reflexivity|].
          cbn [foldM]. destruct (Hvs v (or_introl eq_refl)) as [Hv1 Hv2].
          assert (Hsx' : simplex n (S0 ++ [v])) by (apply snoc_simplex; auto).
          assert (Hbody : body (bases, S0) v = Ok (push_all bases (map ent ((S0 ++ [v]) :: (if length S0 <? max_dim then ext_list fuel (S0 ++ [v]) v else []))), S0)).
          { unfold body. rewrite (@mapM_pure _ _ _ (fun w => dist z d w v)).
            2:{ intros w Hw. apply dist_at_ok; auto. destruct Hsx as (_ & _ & Hb). rewrite Forall_forall in Hb. apply Hb. auto. }
            cbn [bind]. destruct (@iter_max_spec F (map (fun w => dist z d w v) S0)) as (mx & Emx & _).
            { intros Em. apply map_eq_nil in Em. unfold S0 in Em. apply app_eq_nil in Em. destruct Em; discriminate. }
            rewrite Emx. cbn [unwrap bind].
            assert (Ev : omax mx (uval z d S0) = uval z d (S0 ++ [v])).
            { rewrite uval_snoc; [unfold maxl; now rewrite Emx|]. unfold S0. intros Em. apply app_eq_nil in Em. destruct Em; discriminate. }
            rewrite Ev. rewrite from_indices_ok.
            2:{ apply Hsx'. }
            2:{ apply Hfit; auto. rewrite app_length. simpl. lia. }
            cbn [bind unwrap]. rewrite push_at_ok by lia. cbn [bind].
            assert (El : length (S0 ++ [v]) - 1 = length S0) by (rewrite app_length; simpl; lia).
            destruct (Nat.ltb_spec (length S0) max_dim) as [Hl|Hl].
            - rewrite IH; auto; [|lia|rewrite app_length; simpl; lia|rewrite push_pure_length; auto].
              cbn [bind]. rewrite removelast_last. cbn [map]. rewrite push_all_ent, El. reflexivity.
            - cbn [bind]. rewrite removelast_last. cbn [map]. rewrite push_all_ent, El. reflexivity. }
          rewrite Hbody. cbn [bind]. rewrite IHv; [|intros w Hw; apply Hvs; simpl; auto|rewrite push_all_length; auto].
          cbn [flat_map]. rewrite map_app, push_all_app. reflexivity. }
        apply G; auto. intros v Hv. apply in_seq in Hv. lia.
  Qed.

  Definition all_list : list (list nat) := flat_map (fun v => [v] :: ext_list (S n) [v] v) (seq 0 n).
  Definition raw_bases : list (list (F * N)) := push_all (repeat [] (max_dim + 1)) (map ent all_list).

  Theorem build_rips_bases_ok : 1 <= max_dim ->
    build_rips_bases uw z d max_dim = Ok (map (@sort_unstable (pair_ord F rips_index)) raw_bases).
  Proof.
    intros Hmd. unfold build_rips_bases.
    match goal with |- (do b <- foldM ?f _ _; _) = _ => set (body := f) end.
    assert (G : forall vs bases, (forall v, In v vs -> v < n) -> length bases = max_dim + 1 ->
       foldM body vs bases = Ok (push_all bases (map ent (flat_map (fun v => [v] :: ext_list (S n) [v] v) vs)))).
    { induction vs as [|v vs IHv]; intros bases Hvs Hbl; [reflexivity|]. cbn [foldM].
      assert (Hv : v < n) by (apply Hvs; simpl; auto).
      assert (Hsx : simplex n [v]) by (split; [discriminate|split; [repeat constructor|auto]]).
      assert (Hbody : body bases v = Ok (push_all bases (map ent ([v] :: ext_list (S n) [v] v)))).
      { unfold body. rewrite from_indices_ok; [|discriminate|apply Hfit; auto; simpl; lia]. cbn [bind unwrap].
        rewrite push_at_ok by lia. cbn [bind].
        pose proof (@add_cofacets_ok (S n) [] v (push_pure bases 0 (z, code n [v])) Hsx ltac:(lia) ltac:(simpl; lia)) as HA.
        cbn [app] in HA. rewrite uval_single in HA. rewrite HA by (rewrite push_pure_length; auto). cbn [bind]. reflexivity. }
      rewrite Hbody. cbn [bind]. rewrite IHv; [|intros w Hw; apply Hvs; simpl; auto|rewrite push_all_length; auto].
      cbn [flat_map]. rewrite map_app, push_all_app. reflexivity. }
    rewrite G; [reflexivity| |apply repeat_length]. intros v Hv. apply in_seq in Hv. lia.
  Qed.

  (** the enumeration lists every simplex once *)
  Lemma ext_list_in : forall fuel s m t, simplex n (s ++ [m]) -> n - m <= fuel -> length (s ++ [m]) <= max_dim ->
    (In t (ext_list fuel (s ++ [m]) m) <->
     exists v u, t = (s ++ [m]) ++ v :: u /\ simplex n t /\ length t <= max_dim + 1).
  Proof.
    induction fuel as [|fuel IH]; intros s m t Hsx Hf Hlen.
    - exfalso. destruct Hsx as (_ & _ & Hb). rewrite Forall_forall in Hb. specialize (Hb m). rewrite in_app_iff in Hb. simpl in Hb. assert (m < n) by auto. lia.
    - cbn [ext_list]. set (S0 := s ++ [m]) in *. rewrite in_flat_map. split.
      + intros (v & Hv & Hin). apply in_seq in Hv. assert (Hsx' : simplex n (S0 ++ [v])) by (apply snoc_simplex; auto; lia).
        destruct Hin as [<-|Hin].
        * exists v, []. split; auto. split; auto. rewrite app_length. simpl. lia.
        * destruct (Nat.ltb_spec (length S0) max_dim) as [Hl|]; [|destruct Hin].
          apply IH in Hin; auto; [|lia|rewrite app_length; simpl; lia]. destruct Hin as (w & u & -> & H1 & H2).
          exists v, (w :: u). split; [rewrite <- app_assoc; reflexivity|]. auto.
      + intros (v & u & Et & Hsxt & Hlt). exists v.
        assert (Hv : m < v < n).
        { destruct Hsxt as (_ & Hs & Hb). rewrite Et in Hs, Hb. split.
          - apply sorted_app in Hs. destruct Hs as (_ & _ & H). apply H; simpl; auto. unfold S0. apply in_app_iff. simpl; auto.
          - rewrite Forall_forall in Hb. apply Hb. apply in_app_iff. simpl; auto. }
        split; [apply in_seq; lia|]. destruct u as [|w u]; [left; auto|right].
        assert (Hl : length S0 < max_dim) by (rewrite Et, app_length in Hlt; simpl in Hlt; lia).
        apply Nat.ltb_lt in Hl. rewrite Hl. apply Nat.ltb_lt in Hl. apply IH; auto; [apply snoc_simplex; auto; lia|lia|rewrite app_length; simpl; lia|].
        exists w, u. split; [rewrite Et, <- app_assoc; reflexivity|]. auto.
  Qed.
  Lemma all_list_in t : 1 <= max_dim -> (In t all_list <-> simplex n t /\ length t <= max_dim + 1).
  Proof.
    intros Hmd. unfold all_list. rewrite in_flat_map. split.
    - intros (v & Hv & Hin). apply in_seq in Hv. assert (Hsx : simplex n [v]) by (split; [discriminate|split; [repeat constructor|constructor; auto; lia]]).
      destruct Hin as [<-|Hin]; [split; auto; simpl; lia|]. apply (proj1 (@ext_list_in (S n) [] v t Hsx ltac:(lia) ltac:(simpl; lia))) in Hin.
      destruct Hin as (w & u & -> & H1 & H2). auto.
    - intros [Hsx Hl]. destruct t as [|v t]; [destruct Hsx; congruence|]. exists v.
      pose proof Hsx as (_ & Hs & Hb). inversion Hb; subst. split; [apply in_seq; lia|]. destruct t as [|w u]; [left; auto|right].
      assert (Hsv : simplex n [v]) by (split; [discriminate|split; [repeat constructor|auto]]).
      apply (proj2 (@ext_list_in (S n) [] v (v :: w :: u) Hsv ltac:(lia) ltac:(simpl; lia))).
      exists w, u. split; auto.
  Qed.

  Lemma NoDup_flat_map {A B} (f : A -> list B) (l : list A) : NoDup l -> (forall a, In a l -> NoDup (f a)) ->
    (forall a a' b, In a l -> In a' l -> In b (f a) -> In b (f a') -> a = a') -> NoDup (flat_map f l).
  Proof.
    induction 1 as [|a l Ha Hl IH]; simpl; intros H1 H2; [constructor|].
    assert (Hr : NoDup (flat_map f l)) by (apply IH; intros; eauto 6). 
    assert (Hd : forall b, In b (f a) -> ~ In b (flat_map f l)).
    { intros b Hb Hin. apply in_flat_map in Hin. destruct Hin as (a' & Ha' & Hb'). assert (a = a') by eauto. subst. contradiction. }
    assert (Hf : NoDup (f a)) by auto. revert Hf Hd. generalize (f a). induction l0 as [|b l0 IHl]; simpl; auto. intros Hf Hd.
    inversion Hf; subst. constructor; auto. rewrite in_app_iff. intros [|Hin]; auto. apply (Hd b); auto.
  Qed.
  Lemma ext_list_nodup : forall fuel s m, NoDup (ext_list fuel s m).
  Proof.
    assert (Hpre : forall fuel s m t, In t (ext_list fuel s m) -> exists v u, t = s ++ v :: u).
    { induction fuel as [|fuel IH]; intros s m t Hin; [destruct Hin|]. cbn [ext_list] in Hin. apply in_flat_map in Hin.
      destruct Hin as (v & _ & [<-|Hin]); [eauto|]. destruct (length s <? max_dim); [|destruct Hin].
      apply IH in Hin. destruct Hin as (w & u & ->). exists v, (w :: u). rewrite <- app_assoc. reflexivity. }
    induction fuel as [|fuel IH]; intros s m; [constructor|]. cbn [ext_list]. apply NoDup_flat_map.
    - apply seq_NoDup.
    - intros v _. constructor; [|destruct (length s <? max_dim); [apply IH|constructor]].
      destruct (length s <? max_dim); [|intros []]. intros Hin. apply Hpre in Hin. destruct Hin as (w & u & E).
      apply (f_equal (@length nat)) in E. rewrite !app_length in E. simpl in E. lia.
    - intros v v' t _ _ H1 H2.
      assert (Hc : forall v, In t ((s ++ [v]) :: (if length s <? max_dim then ext_list fuel (s ++ [v]) v else [])) -> exists u, t = s ++ v :: u).
      { intros w [<-|Hin]; [eauto|]. destruct (length s <? max_dim); [|destruct Hin]. apply Hpre in Hin. destruct Hin as (x & u & ->).
        exists (x :: u). rewrite <- app_assoc. reflexivity. }
      apply Hc in H1, H2. destruct H1 as (u & ->). destruct H2 as (u' & E). apply app_inv_head in E. congruence.
  Qed.
  Lemma all_list_nodup : NoDup all_list.
  Proof.
    assert (Hpre : forall fuel s m t, In t (ext_list fuel s m) -> exists v u, t = s ++ v :: u).
    { induction fuel as [|fuel IH]; intros s m t Hin; [destruct Hin|]. cbn [ext_list] in Hin. apply in_flat_map in Hin.
      destruct Hin as (v & _ & [<-|Hin]); [eauto|]. destruct (length s <? max_dim); [|destruct Hin].
      apply IH in Hin. destruct Hin as (w & u & ->). exists v, (w :: u). rewrite <- app_assoc. reflexivity. }
    unfold all_list. apply NoDup_flat_map.
    - apply seq_NoDup.
    - intros v _. constructor; [|apply ext_list_nodup]. intros Hin. apply Hpre in Hin. destruct Hin as (w & u & E). discriminate.
    - intros v v' t _ _ [<-|H1] [E|H2].
      + congruence.
      + apply Hpre in H2. destruct H2 as (w & u & E). simpl in E; congruence.
      + subst t. apply Hpre in H1. destruct H1 as (w & u & E). simpl in E; congruence.
      + apply Hpre in H1, H2. destruct H1 as (w & u & ->). destruct H2 as (w' & u' & E). simpl in E. congruence.
  Qed.

  Lemma raw_bases_length : length raw_bases = max_dim + 1.
  Proof. unfold raw_bases. rewrite push_all_length. apply repeat_length. Qed.
  Lemma raw_bases_nth k : k <= max_dim -> nth k raw_bases [] = map (fun t => (uval z d t, code n t)) (filter (fun t => length t - 1 =? k) all_list).
  Proof.
    intros Hk. unfold raw_bases. rewrite push_all_nth by (rewrite repeat_length; lia). rewrite nth_repeat. cbn [app].
    induction all_list as [|t l IH]; cbn [map filter]; auto. unfold ent at 1. cbn [fst].
    destruct (length t - 1 =? k); cbn [map]; rewrite IH; reflexivity.
  Qed.
  Lemma nodup_map_in {A B} (f : A -> B) (l : list A) : NoDup l -> (forall a b, In a l -> In b l -> f a = f b -> a = b) -> NoDup (map f l).
  Proof.
    induction 1 as [|a l Ha Hl IH]; intros Hf; simpl; constructor; [|apply IH; intros; apply Hf; simpl; auto].
    intros H. apply in_map_iff in H. destruct H as (b & E & Hb). apply Ha. assert (b = a) by (apply Hf; simpl; auto). now subst.
  Qed.

  Definition sorted_basis (k : nat) : list (F * N) := @sort_unstable (pair_ord F rips_index) (nth k raw_bases []).

  Lemma sorted_basis_in k p : 1 <= max_dim -> k <= max_dim -> 
    (In p (sorted_basis k) <-> exists t, simplex n t /\ length t = k + 1 /\ p = (uval z d t, code n t)).
  Proof.
    intros Hmd Hk. unfold sorted_basis. split.
    - intros H. apply (Permutation_in _ (Permutation_sym (@sort_perm (pair_ord F rips_index) _))) in H. rewrite raw_bases_nth in H by auto.
      apply in_map_iff in H. destruct H as (t & <- & Ht). apply filter_In in Ht. destruct Ht as [Ht Hl].
      apply all_list_in in Ht; auto. apply Nat.eqb_eq in Hl. exists t. destruct Ht as [Hsx _]. split; auto. split; auto.
      destruct t; [destruct Hsx; congruence|]. simpl in *. lia.
    - intros (t & Hsx & Hl & ->). apply (Permutation_in _ (@sort_perm (pair_ord F rips_index) _)). rewrite raw_bases_nth by auto.
      apply in_map_iff. exists t. split; auto. apply filter_In. split; [apply all_list_in; auto; split; auto; lia|]. apply Nat.eqb_eq. lia.
  Qed.
  Lemma sorted_basis_strict k : 1 <= max_dim -> k <= max_dim -> StronglySorted (@olt (pair_ord F rips_index)) (sorted_basis k).
  Proof.
    intros Hmd Hk. apply sort_strict. rewrite raw_bases_nth by auto. apply nodup_map_in.
    - apply NoDup_filter, all_list_nodup.
    - intros s t Hs Ht E. apply filter_In in Hs, Ht. destruct Hs as [Hs _]. destruct Ht as [Ht _]. apply all_list_in in Hs, Ht; auto.
      injection E as _ E. apply code_inj in E; auto; [apply Hs|apply Ht].
  Qed.
  Lemma map_nth_seq {A B} (f : A -> B) (l : list A) (d0 : A) : map f l = map (fun k => f (nth k l d0)) (seq 0 (length l)).
  Proof.
    induction l as [|a l IH]; auto. cbn [length seq map nth]. f_equal. rewrite <- seq_shift, map_map. exact IH.
  Qed.
  Lemma built_nth : map (@sort_unstable (pair_ord F rips_index)) raw_bases = map sorted_basis (seq 0 (max_dim + 1)).
  Proof. rewrite (@map_nth_seq _ _ _ _ []). rewrite <- raw_bases_length. reflexivity. Qed.
End Enum.
