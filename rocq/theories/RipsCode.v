(** Codes of simplices: [from_indices] and [to_vec]. *)
From Verif Require Import Base Fields Columns Matrices Spec Rips SpecRips.
From Coq Require Import Sorted Lia.
Set Implicit Arguments.
Local Open Scope N_scope.

Section Code.
  Variable n : nat.
  Notation b := (N.of_nat n + 1).

  Lemma code_pos v t : 0 < code n (v :: t).
  Proof. simpl. nia. Qed.
  Lemma code_0 s : code n s = 0 <-> s = [].
  Proof. destruct s; split; intros H; try discriminate; auto. pose proof (code_pos n0 s). lia. Qed.

  Lemma code_bound s : Forall (fun v => (v < n)%nat) s -> code n s < b ^ N.of_nat (length s).
  Proof.
    induction 1 as [|v t Hv Ht IH]; [simpl; lia|].
    simpl length. rewrite Nat2N.inj_succ, N.pow_succ_r'. simpl code. nia.
  Qed.
  Lemma code_lower s : s <> [] -> b ^ N.of_nat (length s - 1) <= code n s.
  Proof.
    induction s as [|v t IH]; intros H; [congruence|]. destruct t as [|w t]; [simpl; lia|].
    specialize (IH ltac:(discriminate)). simpl length in *. simpl Nat.sub in *. rewrite Nat.sub_0_r in *.
    rewrite Nat2N.inj_succ, N.pow_succ_r'. change (code n (v :: w :: t)) with ((N.of_nat v + 1) + b * code n (w :: t)). nia.
  Qed.

  Lemma to_vec_loop_code s : Forall (fun v => (v < n)%nat) s -> forall fuel, (length s < fuel)%nat ->
    to_vec_loop fuel b (code n s) = Ok s.
  Proof.
    induction 1 as [|v t Hv Ht IH]; intros fuel Hf; (destruct fuel as [|fuel]; [simpl in Hf; lia|]); [reflexivity|].
    cbn [to_vec_loop]. pose proof (code_pos v t) as Hp. destruct (N.eqb_spec (code n (v :: t)) 0) as [E|_]; [lia|].
    cbn [code].
    replace (N.of_nat v + 1 + b * code n t) with ((N.of_nat v + 1) + code n t * b) by lia.
    rewrite N.mod_add, N.mod_small by lia. destruct (N.eqb_spec (N.of_nat v + 1) 0) as [E|_]; [lia|].
    rewrite N.div_add, N.div_small, N.add_0_l by lia. rewrite IH by (simpl in Hf; lia). cbn [bind].
    replace (N.of_nat v + 1 - 1) with (N.of_nat v) by lia. now rewrite Nat2N.id.
  Qed.

  Lemma size_nat_code s : Forall (fun v => (v < n)%nat) s -> (length s <= N.size_nat (code n s))%nat.
  Proof.
    intros Hs. destruct s as [|v t]; [simpl; lia|].
    pose proof (@code_lower (v :: t) ltac:(discriminate)) as Hl. set (s := v :: t) in *.
    assert (Hn : (1 <= n)%nat) by (inversion Hs; lia).
    assert (Hsz : code n s < 2 ^ N.of_nat (N.size_nat (code n s))).
    { pose proof (N.size_gt (code n s)) as H.
      destruct (code n s) as [|p] eqn:E; [apply code_0 in E; discriminate|].
      simpl N.size_nat. simpl N.size in H. replace (N.of_nat (Pos.size_nat p)) with (N.pos (Pos.size p)); auto.
      clear. induction p; simpl; rewrite ?Nat2N.inj_succ, <- ?IHp; lia. }
    destruct (le_lt_dec (length s) (N.size_nat (code n s))) as [|Hlt]; auto. exfalso.
    assert (2 ^ N.of_nat (N.size_nat (code n s)) <= b ^ N.of_nat (length s - 1)).
    { transitivity (2 ^ N.of_nat (length s - 1)); [apply N.pow_le_mono_r; lia|]. apply N.pow_le_mono_l. lia. }
    lia.
  Qed.

  Theorem to_vec_code s : Forall (fun v => (v < n)%nat) s -> to_vec n (code n s) = Ok s.
  Proof. intros H. unfold to_vec. apply to_vec_loop_code; auto. pose proof (size_nat_code H). lia. Qed.

  Theorem code_inj s t : Forall (fun v => (v < n)%nat) s -> Forall (fun v => (v < n)%nat) t -> code n s = code n t -> s = t.
  Proof. intros H1 H2 E. pose proof (to_vec_code H1) as A. pose proof (to_vec_code H2) as B. congruence. Qed.

  Lemma from_indices_fold uw s : forall k acc, acc < uw ->
    foldM (fun acc (p : nat * nat) =>
       do pw <- checked uw (b ^ N.of_nat (fst p)); do t <- checked uw (pw * (N.of_nat (snd p) + 1)); checked uw (acc + t))
       (combine (seq k (length s)) s) acc =
    if (acc + b ^ N.of_nat k * code n s <? uw) then Ok (acc + b ^ N.of_nat k * code n s) else Panic.
  Proof.
    induction s as [|v t IH]; intros k acc Ha.
    - cbn [length seq combine foldM code]. rewrite N.mul_0_r, N.add_0_r. apply N.ltb_lt in Ha. now rewrite Ha.
    - cbn [length seq combine foldM code fst snd].
      assert (E : acc + b ^ N.of_nat k * (N.of_nat v + 1 + b * code n t) =
                  acc + b ^ N.of_nat k * (N.of_nat v + 1) + b ^ N.of_nat (S k) * code n t).
      { rewrite Nat2N.inj_succ, N.pow_succ_r'. ring. }
      rewrite E. set (p := b ^ N.of_nat k). set (q := b ^ N.of_nat (S k) * code n t).
      unfold checked at 1. destruct (N.ltb_spec p uw) as [H1|H1]; cbn [bind].
      + unfold checked at 1. destruct (N.ltb_spec (p * (N.of_nat v + 1)) uw) as [H2|H2]; cbn [bind].
        * unfold checked at 1. destruct (N.ltb_spec (acc + p * (N.of_nat v + 1)) uw) as [H3|H3]; cbn [bind].
          -- apply IH. auto.
          -- destruct (N.ltb_spec (acc + p * (N.of_nat v + 1) + q) uw); auto; lia.
        * destruct (N.ltb_spec (acc + p * (N.of_nat v + 1) + q) uw); auto; lia.
      + destruct (N.ltb_spec (acc + p * (N.of_nat v + 1) + q) uw); auto; nia.
  Qed.

  Theorem from_indices_spec uw s : 0 < uw ->
    from_indices uw n s = if code n s <? uw then Ok (match s with [] => None | _ => Some (code n s) end) else Panic.
  Proof.
    intros Hu. unfold from_indices. rewrite from_indices_fold by auto. rewrite N.pow_0_r, N.mul_1_l, N.add_0_l.
    destruct (code n s <? uw); auto. cbn [bind]. destruct s as [|v t]; auto. pose proof (code_pos v t) as H. apply N.ltb_lt in H. now rewrite H.
  Qed.
  Corollary from_indices_ok uw s : s <> [] -> code n s < uw -> from_indices uw n s = Ok (Some (code n s)).
  Proof.
    intros Hs H. rewrite from_indices_spec by lia. pose proof H as H'. apply N.ltb_lt in H'. rewrite H'. destruct s; congruence.
  Qed.

  Theorem from_indices_wrapping_spec uw s : 0 < uw ->
    from_indices_wrapping uw n s = if code n s mod uw =? 0 then None else Some (code n s mod uw).
  Proof.
    intros Hu. unfold from_indices_wrapping.
    assert (G : forall s k acc, acc < uw -> 
      fold_left (fun acc (p : nat * nat) => (acc + (b ^ N.of_nat (fst p) mod uw) * ((N.of_nat (snd p) + 1) mod uw)) mod uw)
         (combine (seq k (length s)) s) acc = (acc + b ^ N.of_nat k * code n s) mod uw).
    { clear s. induction s as [|v t IH]; intros k acc Ha.
      - cbn. rewrite N.mul_0_r, N.add_0_r. symmetry. apply N.mod_small. auto.
      - cbn [length seq combine fold_left code fst snd]. rewrite IH by (apply N.mod_lt; lia).
        rewrite N.add_mod_idemp_l by lia. rewrite (N.add_comm acc), <- N.add_assoc, <- N.add_mod_idemp_l, <- N.mul_mod by lia.
        rewrite N.add_mod_idemp_l by lia. f_equal. rewrite Nat2N.inj_succ, N.pow_succ_r'. ring. }
    rewrite G by auto. rewrite N.pow_0_r, N.mul_1_l, N.add_0_l.
    destruct (N.eqb_spec (code n s mod uw) 0) as [->|H]; auto. assert (Hlt : 0 < code n s mod uw) by (now apply N.neq_0_lt_0). apply N.ltb_lt in Hlt. now rewrite Hlt.
  Qed.

  Lemma codes_fit_pow uw k : b ^ N.of_nat k <= uw -> codes_fit uw n k.
  Proof.
    intros H s (_ & _ & Hs) Hl. eapply N.lt_le_trans; [apply code_bound; auto|]. etransitivity; [|exact H]. apply N.pow_le_mono_r; lia.
  Qed.
End Code.
