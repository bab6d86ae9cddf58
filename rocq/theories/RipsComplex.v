(** The reversed Rips coboundary is a graded complex in the sense of the clearing algorithm. *)
From Verif Require Import Base Fields FieldsFacts Spec LinAlg Columns ColumnsFacts Matrices SpecMat MatricesFacts Reduction LoopProofs StandardProofs ReadOffProofs Graded StandardResults ClearingProofs PropMatrices Duality Rips SpecRips RipsCode RipsFacts RipsBasis PropRips.
From Coq Require Import Ring_theory Sorted Lia.
Set Implicit Arguments.

Section Complex.
  Context {K : coeffT} {F : ordT} (uw : N) (z : F) (d : list (list F)) (m : nat).
  Notation n := (length d).
  Hypothesis Hd : rips_matrix z d.
  Hypothesis Hm : 1 <= m.
  Hypothesis Hfit : codes_fit uw n (m + 2).
  Variable phi : N -> F.
  Hypothesis Hphi : rips_filtration z d phi.

  Let Hsq : wide d := proj1 Hd.
  Lemma fit1 : codes_fit uw n (m + 1).
  Proof. intros s Hs Hl. apply Hfit; auto. lia. Qed.

  Definition cells (k : nat) : list N := map snd (sorted_basis z d m k).
  Definition rbases : list (list (F * N)) := map (sorted_basis z d m) (seq 0 (m + 1)).
  Lemma built : build_rips_bases uw z d m = Ok rbases.
  Proof. rewrite build_rips_bases_ok by (auto using fit1). rewrite built_nth. reflexivity. Qed.

  Lemma cells_in k c : k <= m -> (In c (cells k) <-> exists s, simplex n s /\ length s = k + 1 /\ c = code n s).
  Proof.
    intros Hk. unfold cells. rewrite in_map_iff. split.
    - intros (p & <- & Hp). apply sorted_basis_in in Hp; auto. destruct Hp as (s & H1 & H2 & ->). eauto.
    - intros (s & H1 & H2 & ->). exists (uval z d s, code n s). split; auto. apply sorted_basis_in; auto. eauto.
  Qed.
  Lemma cells_row_lt k x y : k <= m -> before (cells k) x y -> row_lt (phi : N_ord -> F) x y.
  Proof.
    intros Hk H. unfold cells in H. apply before_split in H. destruct H as (A & B & E & Hy).
    pose proof (@sorted_basis_strict F z d m k Hm Hk) as Hst.
    assert (Hin : forall p, In p (sorted_basis z d m k) -> fst p = phi (snd p)).
    { intros p Hp. apply sorted_basis_in in Hp; auto. destruct Hp as (s & H1 & H2 & ->). simpl. eapply diameter_unique; [|apply Hphi; auto]. apply uval_diameter; auto; apply H1. }
    apply map_eq_app in E. destruct E as (A' & R & E & EA & ER). apply map_eq_cons in ER. destruct ER as (p & B' & -> & Ep & EB).
    subst B. apply in_map_iff in Hy. destruct Hy as (q & Eq & Hq). rewrite E in Hst, Hin.
    assert (Hpq : @olt (pair_ord F rips_index) p q).
    { clear - Hst Hq. induction A' as [|a A' IH]; simpl in Hst.
      - apply StronglySorted_inv in Hst. destruct Hst as [_ Hf]. rewrite Forall_forall in Hf. auto.
      - apply StronglySorted_inv in Hst. tauto. }
    assert (Hp : fst p = phi x) by (rewrite <- Ep; apply Hin; apply in_app_iff; simpl; auto).
    assert (Hq' : fst q = phi y) by (rewrite <- Eq; apply Hin; apply in_app_iff; simpl; auto).
    destruct p as [fp cp], q as [fq cq]. cbn [fst snd] in *. subst fp fq cp cq. unfold olt in Hpq. cbn [cmp pair_ord] in Hpq. unfold lex_cmp in Hpq. cbn [fst snd] in Hpq.
    unfold row_lt. destruct (cmp (phi x) (phi y)) eqn:Ec; [|left; exact Ec|discriminate].
    right. split; [now apply cmp_eq|exact Hpq].
  Qed.
  Lemma cells_nodup k : k <= m -> NoDup (cells k).
  Proof.
    intros Hk. apply nodup_map_in.
    - pose proof (@sorted_basis_strict F z d m k Hm Hk) as Hst. induction Hst as [|x l H IH Hf]; constructor; auto.
      rewrite Forall_forall in Hf. intros Hx. apply Hf in Hx. now apply olt_irrefl in Hx.
    - intros a b Ha Hb E. apply sorted_basis_in in Ha, Hb; auto. destruct Ha as (s & Hs & _ & ->). destruct Hb as (t & Ht & _ & ->). simpl in E.
      apply code_inj in E; [now subst|apply Hs|apply Ht].
  Qed.

  (** all cells, dimension after dimension *)
  Definition all_cells : list N := concat (map cells (seq 0 (m + 1))).
  Lemma all_cells_in c : In c all_cells <-> exists s, simplex n s /\ length s <= m + 1 /\ c = code n s.
  Proof.
    unfold all_cells. rewrite in_concat. split.
    - intros (b & Hb & Hc). apply in_map_iff in Hb. destruct Hb as (k & <- & Hk). apply in_seq in Hk. apply cells_in in Hc; [|lia].
      destruct Hc as (s & H1 & H2 & ->). exists s. repeat split; auto; try apply H1. lia.
    - intros (s & H1 & H2 & ->). assert (Hl : length s >= 1) by (destruct s; [destruct H1; congruence|simpl; lia]).
      exists (cells (length s - 1)). split; [apply in_map; apply in_seq; lia|]. apply cells_in; [lia|]. exists s. repeat split; auto; try apply H1. lia.
  Qed.
  Lemma NoDup_concat {A} (ls : list (list A)) : (forall l, In l ls -> NoDup l) ->
    (forall A1 l1 A2 l2 A3 x, ls = A1 ++ l1 :: A2 ++ l2 :: A3 -> In x l1 -> In x l2 -> False) -> NoDup (concat ls).
  Proof.
    induction ls as [|l ls IH]; intros H1 H2; [constructor|]. simpl.
    assert (HI : NoDup (concat ls)).
    { apply IH; [intros; apply H1; simpl; auto|]. intros A1 l1 A2 l2 A3 x E. apply (H2 (l :: A1) l1 A2 l2 A3). now rewrite E. }
    assert (Hd0 : forall x, In x l -> ~ In x (concat ls)).
    { intros x Hx Hc. apply in_concat in Hc. destruct Hc as (l2 & Hl2 & Hx2). apply in_split in Hl2. destruct Hl2 as (A2 & A3 & ->).
      apply (H2 [] l A2 l2 A3 x); auto. }
    assert (Hl : NoDup l) by (apply H1; simpl; auto). clear - HI Hd0 Hl. induction Hl as [|a l Ha Hl IH]; simpl; auto. constructor.
    - rewrite in_app_iff. intros [|Hc]; auto. apply (Hd0 a); simpl; auto.
    - apply IH. intros x Hx. apply Hd0. simpl; auto.
  Qed.
  Lemma map_seq_split {A} (f : nat -> A) : forall len a A1 l1 A2 l2 A3, map f (seq a len) = A1 ++ l1 :: A2 ++ l2 :: A3 ->
    exists i j, a <= i < j /\ j < a + len /\ l1 = f i /\ l2 = f j.
  Proof.
    induction len as [|len IH]; intros a A1 l1 A2 l2 A3 E; [destruct A1; discriminate|]. simpl in E. destruct A1 as [|x A1]; simpl in E.
    - injection E as E0 E. exists a. assert (Hin : In l2 (map f (seq (S a) len))) by (rewrite E; apply in_app_iff; simpl; auto).
      apply in_map_iff in Hin. destruct Hin as (j & <- & Hj). apply in_seq in Hj. exists j. split; [lia|]. split; [lia|auto].
    - injection E as E0 E. destruct (IH (S a) A1 l1 A2 l2 A3 E) as (i & j & H1 & H2 & H3 & H4). exists i, j. split; [lia|]. split; [lia|auto].
  Qed.
  Lemma cells_disjoint i j c : i <= m -> j <= m -> In c (cells i) -> In c (cells j) -> i = j.
  Proof.
    intros Hi Hj H1 H2. apply cells_in in H1, H2; auto. destruct H1 as (s & Hs & Hl & ->). destruct H2 as (t & Ht & Hl' & E).
    apply code_inj in E; [|apply Hs|apply Ht]. subst t. lia.
  Qed.
  Lemma all_cells_nodup : NoDup all_cells.
  Proof.
    apply NoDup_concat.
    - intros l Hl. apply in_map_iff in Hl. destruct Hl as (k & <- & Hk). apply in_seq in Hk. apply cells_nodup. lia.
    - intros A1 l1 A2 l2 A3 x E H1 H2. apply map_seq_split in E. destruct E as (i & j & Hij & Hj & -> & ->).
      assert (i = j) by (apply (@cells_disjoint i j x); auto; lia). lia.
  Qed.
  Lemma concat_before {A} (ls : list (list A)) x y : before (concat ls) x y ->
    (exists l, In l ls /\ before l x y) \/ exists A1 l1 A2 l2 A3, ls = A1 ++ l1 :: A2 ++ l2 :: A3 /\ In x l1 /\ In y l2.
  Proof.
    induction ls as [|l ls IH]; intros H; [destruct H as (A1 & B & E & H); destruct A1; discriminate|].
    apply before_split in H. destruct H as (A1 & B & E & Hy). simpl in E.
    assert (Hc : (exists B', l = A1 ++ x :: B' /\ B = B' ++ concat ls) \/ (exists A', A1 = l ++ A' /\ concat ls = A' ++ x :: B)).
    { clear - E. revert A1 E. induction l as [|a l IH]; intros A1 E; simpl in E; [right; exists A1; auto|].
      destruct A1 as [|b A1]; simpl in E; injection E as -> E; [left; exists l; auto|].
      destruct (IH A1 E) as [(B' & -> & ->)|(A' & -> & E')]; [left; exists B'; auto|right; exists A'; auto]. }
    destruct Hc as [(B' & -> & ->)|(A' & -> & E')].
    - apply in_app_iff in Hy. destruct Hy as [Hy|Hy].
      + left. eexists. split; [simpl; left; reflexivity|]. apply before_split. eauto.
      + right. apply in_concat in Hy. destruct Hy as (l2 & Hl2 & Hy). apply in_split in Hl2. destruct Hl2 as (A2 & A3 & ->).
        exists [], (A1 ++ x :: B'), A2, l2, A3. split; auto. split; auto. apply in_app_iff; simpl; auto.
    - destruct IH as [(l' & Hl' & Hb)|(A1 & l1 & A2 & l2 & A3 & -> & H1 & H2)].
      + apply before_split. eauto.
      + left. exists l'. simpl; auto.
      + right. exists (l :: A1), l1, A2, l2, A3. auto.
  Qed.
  Lemma all_cells_before s t : simplex n s -> simplex n t -> before all_cells (code n s) (code n t) ->
    length s < length t \/ (length s = length t /\ row_lt (phi : N_ord -> F) (code n s) (code n t)).
  Proof.
    intros Hs Ht H. apply concat_before in H. destruct H as [(l & Hl & Hb)|(A1 & l1 & A2 & l2 & A3 & E & H1 & H2)].
    - apply in_map_iff in Hl. destruct Hl as (k & <- & Hk). apply in_seq in Hk. right. pose proof (before_in Hb) as [Hx Hy].
      apply cells_in in Hx, Hy; try lia. destruct Hx as (s' & Hs' & Hl1 & E1). destruct Hy as (t' & Ht' & Hl2 & E2).
      apply code_inj in E1, E2; try apply Hs; try apply Ht; try apply Hs'; try apply Ht'. subst s' t'.
      split; [lia|]. eapply cells_row_lt; [|exact Hb]. lia.
    - apply map_seq_split in E. destruct E as (i & j & Hij & Hj & -> & ->). left. apply cells_in in H1, H2; try lia.
      destruct H1 as (s' & Hs' & Hl1 & E1). destruct H2 as (t' & Ht' & Hl2 & E2).
      apply code_inj in E1, E2; try apply Hs; try apply Ht; try apply Hs'; try apply Ht'. subst s' t'. lia.
  Qed.
  Lemma all_cells_order : rips_order d (phi : N_ord -> F) (m + 1) all_cells.
  Proof.
    split; [apply all_cells_nodup|]. split; [apply all_cells_in|]. intros s t Hs Ht Hl Hb. apply all_cells_before in Hb; auto.
    destruct Hb as [|[_ H]]; [lia|auto].
  Qed.

  (** the reversed matrix as the CLI passes it *)
  Notation rN := (rev_ord rips_index).
  Notation rF := (rev_ord F).
  Variable b : basis rips_index.
  Definition RD : fmatrix K rN rN rF := by_ref (reverse_f (fst (matrix_with_basis (rips_coboundary (K:=K) uw d) b))).
  Definition rphi : rN -> rF := fun c => Reverse (phi (unrev c)).
  Definition rblocks : list (list rN) := map (fun k => rev_basis (cells k)) (seq 0 (m + 1)).

  Lemma Hcof s : simplex n s -> length s <= m + 1 -> cofaces_fit uw d s.
  Proof. intros Hs Hl t i Ht Hf. apply Hfit; auto. rewrite (facet_length Hf). lia. Qed.
  Lemma RD_col s : simplex n s -> length s <= m + 1 ->
    m_col RD (Reverse (code n s)) = Ok (map (fun p : K * rips_index => (fst p, Reverse (snd p))) (coface_terms d s)).
  Proof.
    intros Hs Hl. cbn [RD by_ref fm_default m_col reverse_f]. unfold reverse_oracle. cbn [unrev matrix_with_basis fst fm_default m_col rips_coboundary].
    rewrite coboundary_column_ok by (auto using Hcof). reflexivity.
  Qed.
  Lemma RD_col_in s k r : simplex n s -> length s <= m + 1 -> In (k, r) (map (fun p : K * rips_index => (fst p, Reverse (snd p))) (coface_terms d s)) ->
    exists t i, simplex n t /\ facet t i s /\ r = Reverse (code n t).
  Proof.
    intros Hs Hl H. apply in_map_iff in H. destruct H as ([k' r'] & [= <- <-] & H). apply coface_terms_in in H; auto.
    destruct H as (i & t & Ht & Hf & E & _). exists t, i. simpl. split; auto. split; auto. now rewrite E.
  Qed.
  Lemma coef_rev (l : list (K * rips_index)) r : coef (R:=rN) (map (fun p => (fst p, Reverse (snd p))) l) (Reverse r) = coef l r.
  Proof.
    induction l as [|[k x] l IH]; auto. cbn [map coef fst snd]. rewrite IH.
    destruct (oeqb_spec (T:=rips_index) x r) as [->|Hne].
    - rewrite (oeqb_refl (T:=rN)). reflexivity.
    - destruct (oeqb_spec (T:=rN) (Reverse x) (Reverse r)); [congruence|reflexivity].
  Qed.
  Lemma RD_den s t : simplex n s -> length s <= m + 1 -> simplex n t ->
    mden (m_col RD) (Reverse (code n s)) (Reverse (code n t)) = inc t s.
  Proof. intros Hs Hl Ht. unfold mden. rewrite RD_col by auto. rewrite coef_rev. now apply coface_terms_coef. Qed.
  Lemma RD_den_nz s r : simplex n s -> length s <= m + 1 -> mden (m_col RD) (Reverse (code n s)) r <> f0 ->
    exists t i, simplex n t /\ facet t i s /\ r = Reverse (code n t).
  Proof.
    intros Hs Hl H. unfold mden in H. rewrite RD_col in H by auto. apply coef_in in H. destruct H as [k Hk]. eapply RD_col_in; eauto.
  Qed.
  Lemma RD_fil s : simplex n s -> m_fil RD (Reverse (code n s)) = Ok (rphi (Reverse (code n s))).
  Proof.
    intros Hs. cbn [RD by_ref fm_default m_fil reverse_f unrev matrix_with_basis fst rips_coboundary].
    destruct (@filtration_value_ok F z d s Hsq Hs) as (f & -> & Hf). cbn [bind]. unfold rphi. cbn [unrev]. do 2 f_equal.
    eapply diameter_unique; [exact Hf|now apply Hphi].
  Qed.
  Lemma rblock_in k c : k <= m -> (In c (rev_basis (cells k)) <-> exists s, simplex n s /\ length s = k + 1 /\ c = Reverse (code n s)).
  Proof.
    intros Hk. destruct c as [c]. transitivity (In c (cells k)); [exact (rev_basis_in (C:=rips_index) (cells k) c)|]. rewrite cells_in by auto. split; intros (s & H1 & H2 & E); exists s; (split; [auto|]); (split; [auto|congruence]).
  Qed.
  Lemma rblocks_in c : In c (concat rblocks) <-> exists s, simplex n s /\ length s <= m + 1 /\ c = Reverse (code n s).
  Proof.
    unfold rblocks. rewrite in_concat. split.
    - intros (bk & Hb & Hc). apply in_map_iff in Hb. destruct Hb as (k & <- & Hk). apply in_seq in Hk. apply rblock_in in Hc; [|lia].
      destruct Hc as (s & H1 & H2 & ->). exists s. repeat split; auto; try apply H1. lia.
    - intros (s & H1 & H2 & ->). assert (Hl : length s >= 1) by (destruct s; [destruct H1; congruence|simpl; lia]).
      exists (rev_basis (cells (length s - 1))). split; [apply (in_map (fun k => rev_basis (cells k))); apply in_seq; lia|]. apply rblock_in; [lia|]. exists s. repeat split; auto; try apply H1. lia.
  Qed.
  Lemma RD_coherent c : In c (concat rblocks) -> coherent_at rphi RD c.
  Proof.
    intros Hc. apply rblocks_in in Hc. destruct Hc as (s & Hs & Hl & ->). unfold RD.
    eapply (@coherent_default K rN rN rF); [exact (RD_col Hs Hl)|].
    intros k r Hr. destruct (RD_col_in k r Hs Hl Hr) as (t & i & Ht & _ & ->). exact (RD_fil Ht).
  Qed.
  Lemma rsub k : k <= m -> exists sub, sb_dim (reverse_split (rips_split rbases)) k = Ok sub /\ enumerates sub (rev_basis (cells k)).
  Proof.
    intros Hk. cbn [reverse_split sb_dim]. destruct (@C39_rips_basis F rbases) as (_ & _ & H3 & _).
    destruct (H3 k (sorted_basis z d m k)) as (sub & E & He).
    { unfold rbases. rewrite nth_error_map. rewrite (nth_error_nth' _ 0) by (rewrite seq_length; lia). rewrite seq_nth by lia. reflexivity. }
    rewrite E. cbn [bind]. eexists. split; [reflexivity|]. apply (C15_reverse_basis He).
  Qed.
  Lemma map_seq_adj {A} (f : nat -> A) : forall len a pre x y post, map f (seq a len) = pre ++ x :: y :: post ->
    exists k, a <= k /\ k + 1 < a + len /\ x = f k /\ y = f (k + 1).
  Proof.
    induction len as [|len IH]; intros a pre x y post E; [destruct pre; discriminate|]. simpl in E. destruct pre as [|p pre]; simpl in E.
    - injection E as <- E. destruct len as [|len]; [discriminate|]. simpl in E. injection E as <- _. exists a. split; [lia|]. split; [lia|]. split; auto. f_equal. lia.
    - injection E as _ E. destruct (IH _ _ _ _ _ E) as (k & H1 & H2 & H3 & H4). exists k. split; [lia|]. split; [lia|auto].
  Qed.
  Lemma map_seq_last {A} (f : nat -> A) len pre x : map f (seq 0 (len + 1)) = pre ++ [x] -> x = f len.
  Proof. rewrite seq_app, map_app. simpl. intros E. apply app_inj_tail in E. symmetry. tauto. Qed.

  Theorem rips_block_complex : block_complex rphi RD (reverse_split (rips_split rbases)) (seq 0 (m + 1)) rblocks.
  Proof.
    refine (conj _ (conj _ (conj _ (conj _ (conj _ _))))).
    - apply NoDup_concat.
      + intros l Hl. apply in_map_iff in Hl. destruct Hl as (k & <- & Hk). apply in_seq in Hk. apply (rev_basis_nodup (C:=rips_index)). apply cells_nodup. lia.
      + intros A1 l1 A2 l2 A3 [x] E H1 H2. apply map_seq_split in E. destruct E as (i & j & Hij & Hj & -> & ->).
        apply (rev_basis_in (C:=rips_index) (cells i)) in H1. apply (rev_basis_in (C:=rips_index) (cells j)) in H2.
        assert (i = j) by (apply (@cells_disjoint i j x); auto; lia). lia.
    - unfold rblocks. assert (H : forall k, In k (seq 0 (m + 1)) -> k <= m) by (intros k Hk; apply in_seq in Hk; lia).
      revert H. generalize (seq 0 (m + 1)). induction l as [|k l IH]; intros H; simpl; constructor; [apply rsub; apply H; simpl; auto|apply IH; intros; apply H; simpl; auto].
    - apply RD_coherent.
    - intros blk [x] [y] Hb Hxy. apply in_map_iff in Hb. destruct Hb as (k & <- & Hk). apply in_seq in Hk.
      apply (rev_basis_before (C:=rips_index) (cells k)) in Hxy. apply cells_row_lt in Hxy; [|lia].
      unfold row_lt, rphi in *. cbn [unrev]. destruct Hxy as [H|[H1 H2]]; [left; exact H|right; split; [f_equal; symmetry; exact H1|exact H2]].
    - intros pre blk next post E c Hc. apply map_seq_adj in E. destruct E as (k & _ & Hk & -> & ->).
      apply rblock_in in Hc; [|lia]. destruct Hc as (s & Hs & Hl & ->).
      assert (Hnext : forall t i, simplex n t -> facet t i s -> In (Reverse (code n t) : rN) (rev_basis (cells (k + 1)))).
      { intros t i Ht Hf. apply rblock_in; [lia|]. exists t. split; auto. split; auto. rewrite (facet_length Hf). lia. }
      split.
      + intros t kk r Et Hr. rewrite RD_col in Et by (auto; lia). injection Et as <-. apply RD_col_in in Hr; auto; [|lia].
        destruct Hr as (t & i & Ht & Hf & ->). eauto.
      + intros r. destruct (fscalar_dec (lincomb (rev_basis (cells (k + 1)) : list rN) (mden (m_col RD) (Reverse (code n s))) (mden (m_col RD)) r)) as [|Hnz]; auto.
        exfalso. assert (Hr : exists u, simplex n u /\ r = Reverse (code n u)).
        { apply lincomb_nonzero in Hnz. destruct Hnz as (c & Hc & _ & Hn). apply rblock_in in Hc; [|lia]. destruct Hc as (t & Ht & Hlt & ->).
          apply RD_den_nz in Hn; auto; [|lia]. destruct Hn as (u & i & Hu & _ & ->). eauto. }
        destruct Hr as (u & Hu & ->). apply Hnz. clear Hnz.
        pose (L := map (fun c => match to_vec n c with Ok s => s | _ => [] end) (cells (k + 1))).
        assert (EL : map (code n) L = cells (k + 1)).
        { unfold L. rewrite map_map. rewrite <- (map_id (cells (k + 1))) at 2. apply map_ext_in. intros c Hc. apply cells_in in Hc; [|lia].
          destruct Hc as (t & Ht & _ & ->). rewrite to_vec_code by apply Ht. reflexivity. }
        assert (HinL : forall t, In t L <-> simplex n t /\ length t = k + 2).
        { intros t. split.
          - intros Ht. apply in_map_iff in Ht. destruct Ht as (c & Et & Hc). apply cells_in in Hc; [|lia]. destruct Hc as (t' & Ht' & Hlt & ->).
            rewrite to_vec_code in Et by apply Ht'. subst t'. split; auto. lia.
          - intros [Ht Hlt]. apply in_map_iff. exists (code n t). split; [now rewrite to_vec_code by apply Ht|]. apply cells_in; [lia|]. exists t. split; auto. split; auto. lia. }
        assert (HL : NoDup L).
        { apply (NoDup_map_inv (code n)). rewrite EL. apply cells_nodup. lia. }
        unfold lincomb. rewrite (vsum_rev_basis (K:=K) (C:=rips_index)). rewrite <- EL, vsum_map.
        etransitivity; [|apply (@inc_inc K L u s HL)].
        * apply vsum_ext. intros t Ht. apply HinL in Ht. destruct Ht as [Ht Hlt]. rewrite !RD_den by (auto; lia). apply (Rmul_comm (F_ring K)).
        * intros t i Hf Hnz. apply inc_nonzero in Hnz. destruct Hnz as (j & Hj). apply HinL. split.
          -- eapply facet_simplex; [exact Hu|exact Hf|]. intros ->. apply facet_length in Hj. discriminate.
          -- rewrite (facet_length Hj). lia.
    - intros pre blk E c r Hc Hnz Hr. apply map_seq_last in E. subst blk. apply rblock_in in Hc; auto. destruct Hc as (s & Hs & Hl & ->).
      apply RD_den_nz in Hnz; auto; [|lia]. destruct Hnz as (t & i & Ht & Hf & ->). apply rblocks_in in Hr. destruct Hr as (t' & Ht' & Hlt & E).
      injection E as E. apply code_inj in E; [|apply Ht|apply Ht']. subst t'. rewrite (facet_length Hf) in Hlt. lia.
  Qed.
End Complex.
