(** The constant np.pi against the number pi, and what that means for C81. *)
From Coq Require Import Reals Lra Lia List Bool ZArith QArith Qreals.
From Flocq Require Import Core.Core IEEE754.BinarySingleNaN.
From Verif Require Import LinAlg RealAux Py ModelFloat FactsB64 PropB64.
Import ListNotations.
Open Scope R_scope.

(* ---- pi to nineteen digits, from Machin's formula of the standard library ---- *)
Definition qseq (x : Q) (n : nat) : Q := (Qpower x (Z.of_nat (2 * n + 1)) / inject_Z (Z.of_nat (2 * n + 1)))%Q.
Definition qterm (n : nat) : Q := (Qpower (-1) (Z.of_nat n) * (2 * qseq (1 # 3) n + qseq (1 # 7) n))%Q.
Fixpoint qsum (n : nat) : Q := match n with O => qterm 0 | S m => Qred (qsum m + qterm n)%Q end.

Lemma Q2R_pow x n : Q2R (Qpower x (Z.of_nat n)) = Q2R x ^ n.
Proof.
  induction n as [|n IH].
  - cbn. unfold Q2R; cbn. lra.
  - rewrite Nat2Z.inj_succ. unfold Z.succ.
    destruct n.
    + cbn. ring.
    + assert (E : (Qpower x (Z.of_nat (S n) + 1) == Qpower x (Z.of_nat (S n)) * x)%Q).
      { replace (Z.of_nat (S n)) with (Zpos (Pos.of_succ_nat n)) by reflexivity.
        replace (Zpos (Pos.of_succ_nat n) + 1)%Z with (Zpos (Pos.succ (Pos.of_succ_nat n))) by lia.
        cbn [Qpower]. unfold Qpower_positive. rewrite pow_pos_succ.
        - apply Qmult_comm.
        - apply Q_Setoid.
        - intros a b H c d K. rewrite H, K. reflexivity.
        - intros. apply Qmult_assoc. }
      rewrite (Qeq_eqR _ _ E), Q2R_mult, IH. cbn [pow]. ring.
Qed.
Lemma Q2R_nat n : Q2R (inject_Z (Z.of_nat n)) = INR n.
Proof. unfold Q2R, inject_Z. cbn. rewrite INR_IZR_INZ. field. Qed.
Lemma Q2R_seq x n : Q2R (qseq x n) = Ratan_seq (Q2R x) n.
Proof.
  unfold qseq, Ratan_seq. rewrite Q2R_div.
  - rewrite Q2R_pow, Q2R_nat. reflexivity.
  - intros E. unfold Qeq, inject_Z in E. cbn in E. lia.
Qed.
Lemma Q2R_term n : Q2R (qterm n) = tg_alt PI_2_3_7_tg n.
Proof.
  unfold qterm, tg_alt, PI_2_3_7_tg. rewrite Q2R_mult, Q2R_pow, Q2R_plus, Q2R_mult, !Q2R_seq.
  replace (Q2R (-1)) with (-1) by (unfold Q2R; cbn; lra).
  replace (Q2R 2) with 2 by (unfold Q2R; cbn; lra).
  replace (Q2R (1 # 3)) with (/ 3) by (unfold Q2R; cbn; lra).
  replace (Q2R (1 # 7)) with (/ 7) by (unfold Q2R; cbn; lra). reflexivity.
Qed.
Lemma Q2R_sum n : Q2R (qsum n) = sum_f_R0 (tg_alt PI_2_3_7_tg) n.
Proof.
  induction n as [|n IH]; cbn [qsum sum_f_R0].
  - apply Q2R_term.
  - rewrite (Qeq_eqR _ _ (Qred_correct _)), Q2R_plus, IH. rewrite Q2R_term. reflexivity.
Qed.

Lemma pi_bounds : Q2R (4 * qsum 19) <= PI <= Q2R (4 * qsum 18).
Proof.
  pose proof (PI_2_3_7_ineq 9) as [H K]. change (S (2 * 9)) with 19%nat in H. change (2 * 9)%nat with 18%nat in K.
  rewrite <- Q2R_sum in H, K. rewrite !Q2R_mult.
  replace (Q2R 4) with 4 by (unfold Q2R; cbn; lra). lra.
Qed.

Lemma pi_lo : 3141592653589793238 / 1000000000000000000 <= PI.
Proof.
  eapply Rle_trans; [|apply pi_bounds].
  replace (3141592653589793238 / 1000000000000000000) with (Q2R (3141592653589793238 # 1000000000000000000)).
  - apply Qle_Rle. vm_compute. discriminate.
  - unfold Q2R. cbn. lra.
Qed.
Lemma pi_hi : PI <= 3141592653589793239 / 1000000000000000000.
Proof.
  eapply Rle_trans; [apply pi_bounds|].
  replace (3141592653589793239 / 1000000000000000000) with (Q2R (3141592653589793239 # 1000000000000000000)).
  - apply Qle_Rle. vm_compute. discriminate.
  - unfold Q2R. cbn. lra.
Qed.

(* ================= C81 ================= *)
(** np.pi is the number pi, to within the last place *)
Lemma b_pi_err : 0 < PI - bval b_pi <= 2 * uu.
Proof.
  pose proof pi_lo. pose proof pi_hi.
  assert (E : bval b_pi = 884279719003555 / 281474976710656) by (vm_compute; lra).
  assert (U : uu = / 9007199254740992) by (unfold uu; cbn; reflexivity).
  rewrite E, U. split; lra.
Qed.

Lemma two_pi_val : bval (b_mul (b_lit 2 1) b_pi) = 2 * bval b_pi.
Proof. vm_compute. lra. Qed.

(** theta plus m turns, computed *)
Lemma turn_err (th tp f x : R) m : 1 <= m -> 0 < 2 * PI - tp <= 4 * uu ->
  Rabs (f - m) <= uu * m + ee -> forall P, Rabs (P - tp * f) <= uu * Rabs (tp * f) + ee -> Rabs (x - (th + P)) <= uu * Rabs (th + P) + ee ->
  Rabs (x - (th + 2 * PI * m)) <= uu * (Rabs th + 24 * m).
Proof.
  intros Hm Ht Ef P EP Ex. pose proof uu_pos as U0. pose proof uu_small as U1. pose proof ee_pos as E0.
  assert (EU : ee <= uu * (1 / 1000)).
  { unfold uu, ee. replace (-1075)%Z with (-53 + -1022)%Z by lia. rewrite bpow_plus. apply Rmult_le_compat_l; [apply bpow_ge_0|].
    apply Rle_trans with (bpow radix2 (-10)); [apply bpow_le; lia | cbn; lra]. }
  pose proof pi_lo as PL. pose proof pi_hi as PH.
  set (um := uu * m) in *. assert (UM : uu <= um) by (unfold um; nra). assert (UM1 : um <= m / 1000000) by (unfold um; nra).
  (* f against m *)
  assert (F : Rabs (f - m) <= 1.001 * um) by lra.
  apply Rabs_le_inv in F.
  assert (T : 6.283 <= tp <= 6.2832) by lra.
  assert (TF : Rabs (tp * f - 2 * PI * m) <= 10.3 * um).
  { replace (tp * f - 2 * PI * m) with (tp * (f - m) - (2 * PI - tp) * m) by ring.
    assert ((2 * PI - tp) * m <= 4 * um) by (unfold um; nra). assert (0 <= (2 * PI - tp) * m) by nra.
    assert (- (6.2832 * (1.001 * um)) <= tp * (f - m) <= 6.2832 * (1.001 * um)) by (split; nra).
    apply Rabs_le. lra. }
  assert (TF0 : 0 <= tp * f <= 6.2833 * m) by (apply Rabs_le_inv in TF; split; nra).
  rewrite (Rabs_right (tp * f)) in EP by lra.
  assert (UT : uu * (tp * f) <= 6.2833 * um) by (unfold um; nra).
  assert (PM : Rabs (P - 2 * PI * m) <= 16.7 * um).
  { replace (P - 2 * PI * m) with ((P - tp * f) + (tp * f - 2 * PI * m)) by ring.
    pose proof (Rabs_triang (P - tp * f) (tp * f - 2 * PI * m)). lra. }
  assert (PA : Rabs P <= 6.284 * m).
  { apply Rabs_le_inv in PM. assert (2 * PI * m <= 6.2833 * m) by (apply Rmult_le_compat_r; lra).
    assert (6 * m <= 2 * PI * m) by (apply Rmult_le_compat_r; lra). apply Rabs_le. lra. }
  assert (UP : uu * Rabs (th + P) <= uu * Rabs th + 6.284 * um).
  { pose proof (Rabs_triang th P). unfold um. nra. }
  replace (x - (th + 2 * PI * m)) with ((x - (th + P)) + (P - 2 * PI * m)) by ring.
  pose proof (Rabs_triang (x - (th + P)) (P - 2 * PI * m)).
  replace (uu * (Rabs th + 24 * m)) with (uu * Rabs th + 24 * um) by (unfold um; ring). lra.
Qed.

(** Every alternative listed is the angle plus a number n of whole turns, other than zero, up to an error of
    2^-53 * (|theta| + 24 |n|). *)
Theorem C81_turns : forall L dot (lower upper theta x : b64), In x (g_equiv1 (b64_arith L dot) lower upper theta) -> bfin x ->
  exists n : Z, n <> 0%Z /\ Rabs (bval x - (bval theta + 2 * PI * IZR n)) <= uu * (Rabs (bval theta) + 24 * Rabs (IZR n)).
Proof.
  intros L dot lower upper theta x HI Fx. unfold g_equiv1 in HI. cbn [b64_arith nfloor nlit npi nmul nadd nsub nofZ] in HI.
  pose proof b_pi_err as BP. pose proof two_pi_val as TV.
  set (tp := b_mul (b_lit 2 1) b_pi) in *.
  assert (TP : 0 < 2 * PI - bval tp <= 4 * uu) by lra.
  apply in_app_or in HI. destruct HI as [HI|HI]; apply in_map_iff in HI; destruct HI as (j & <- & _);
    set (m := (Z.of_nat j + 1)%Z) in *; assert (M1 : 1 <= IZR m) by (apply IZR_le; lia).
  - exists m. split; [lia|]. rewrite (Rabs_right (IZR m)) by lra.
    destruct (add_fin _ _ Fx) as [Fth FP]. destruct (mul_fin _ _ FP) as [_ Ff].
    pose proof (rnd_err (IZR m)) as E2. rewrite <- (ofZ_val _ Ff) in E2. rewrite (Rabs_right (IZR m)) in E2 by lra.
    pose proof (rnd_err (bval tp * bval (b_ofZ m))) as E3. rewrite <- (mul_val _ _ FP) in E3.
    pose proof (rnd_err (bval theta + bval (b_mul tp (b_ofZ m)))) as E4. rewrite <- (add_val _ _ Fx) in E4.
    exact (turn_err _ _ _ _ _ M1 TP E2 _ E3 E4).
  - exists (- m)%Z. split; [lia|]. rewrite opp_IZR, Rabs_Ropp, (Rabs_right (IZR m)) by lra.
    destruct (sub_fin _ _ Fx) as [Fth FP]. destruct (mul_fin _ _ FP) as [_ Ff].
    pose proof (rnd_err (IZR m)) as E2. rewrite <- (ofZ_val _ Ff) in E2. rewrite (Rabs_right (IZR m)) in E2 by lra.
    pose proof (rnd_err (bval tp * bval (b_ofZ m))) as E3. rewrite <- (mul_val _ _ FP) in E3.
    pose proof (rnd_err (bval theta - bval (b_mul tp (b_ofZ m)))) as E4. rewrite <- (sub_val _ _ Fx) in E4.
    set (x := bval (b_sub theta (b_mul tp (b_ofZ m)))) in *. set (P := bval (b_mul tp (b_ofZ m))) in *.
    assert (E4' : Rabs (- x - (- bval theta + P)) <= uu * Rabs (- bval theta + P) + ee).
    { replace (- x - (- bval theta + P)) with (- (x - (bval theta - P))) by ring. replace (- bval theta + P) with (- (bval theta - P)) by ring.
      rewrite !Rabs_Ropp. exact E4. }
    pose proof (turn_err _ _ _ _ _ M1 TP E2 _ E3 E4') as B. rewrite Rabs_Ropp in B.
    replace (x - (bval theta + 2 * PI * - IZR m)) with (- (- x - (- bval theta + 2 * PI * IZR m))) by ring. rewrite Rabs_Ropp. exact B.
Qed.
Example C81_turns_ex : exists x, (forall L dot, In x (g_equiv1 (b64_arith L dot) (b_ofZ (-20)) (b_ofZ 20) (b_ofZ 1))) /\ bfin x.
Proof. destruct C81_limits_ex as (x & _ & H & F). exists x. split; [intros L dot; apply H | exact F]. Qed.

Lemma floor_gt x y n : b_floor x y = Some n -> bval x < (IZR n + 1) * bval y.
Proof.
  intros H. destruct y as [sy|sy| |[|] m' e' By]; try (destruct x; discriminate).
  assert (PY : 0 < bval (B754_finite false m' e' By)) by (unfold bval, B2R, F2R; cbn; apply Rmult_lt_0_compat; [apply IZR_lt; reflexivity | apply bpow_gt_0]).
  destruct x as [sx|sx| |sx m e Bx]; try discriminate; unfold b_floor in H.
  - injection H as <-. change (bval (B754_zero sx)) with 0. lra.
  - set (a := cond_Zopp sx (Zpos m)) in *. injection H as H.
    set (k := Z.min e e'). assert (Ee : (e = k + Z.max 0 (e - e'))%Z) by lia. assert (Ee' : (e' = k + Z.max 0 (e' - e))%Z) by lia.
    set (p := Z.max 0 (e - e')) in *. set (p' := Z.max 0 (e' - e)) in *.
    assert (D : (a * 2 ^ p < (n + 1) * (Zpos m' * 2 ^ p'))%Z).
    { assert (HB : (0 < Zpos m' * 2 ^ p')%Z) by (apply Z.mul_pos_pos; [reflexivity | apply Z.pow_pos_nonneg; lia]).
      pose proof (Z.mul_succ_div_gt (a * 2 ^ p) _ HB) as Q. change (a * 2 ^ p / (Zpos m' * 2 ^ p') = n)%Z in H. rewrite H in Q. rewrite (Z.mul_comm (n + 1)). exact Q. }
    apply IZR_lt in D. rewrite !mult_IZR, plus_IZR in D.
    change 2%Z with (radix_val radix2) in D. rewrite !(IZR_Zpower radix2) in D by lia.
    unfold bval, B2R, F2R. cbn [Fnum Fexp cond_Zopp]. fold a. rewrite Ee, Ee', !bpow_plus.
    pose proof (bpow_gt_0 radix2 k) as K. nra.
Qed.
Lemma floor_some x y : bfin x -> bfin y -> 0 < bval y -> exists n, b_floor x y = Some n.
Proof.
  intros Fx Fy P. destruct y as [sy|sy| |[|] m' e' By]; try discriminate.
  - exfalso. cbn in P. lra.
  - exfalso. unfold bval, B2R, F2R in P. cbn in P.
    assert (IZR (Zneg m') < 0) by (apply IZR_lt; reflexivity). pose proof (bpow_gt_0 radix2 e'). nra.
  - destruct x as [sx|sx| |sx m e Bx]; try discriminate; cbn [b_floor]; eexists; reflexivity.
Qed.

(** m turns that fit, with a margin, are counted *)
Lemma turns_fit d tp (th lim : R) (D : b64) m : bval tp = d -> bfin tp -> bfin D -> 6 <= d <= 2 * PI ->
  Rabs (bval D - (lim - th)) <= uu * Rabs (lim - th) + ee -> (1 <= m)%Z ->
  th + 2 * PI * IZR m <= lim - 2 * uu * (Rabs th + Rabs lim) ->
  exists n, b_floor D tp = Some n /\ (m <= n)%Z.
Proof.
  intros <- Ft FD HT ED Hm HL. destruct (floor_some D tp FD Ft ltac:(lra)) as [n Hn]. exists n. split; [exact Hn|].
  pose proof (floor_gt _ _ _ Hn) as G. pose proof uu_pos as U0. pose proof ee_le_uu as U1.
  assert (M1 : 1 <= IZR m) by (apply IZR_le; lia).
  assert (S1 : 1 <= Rabs th + Rabs lim).
  { pose proof (Rle_abs lim). pose proof (Rle_abs (- th)) as Q. rewrite Rabs_Ropp in Q.
    pose proof (Rabs_pos th). pose proof (Rabs_pos lim).
    assert (0 <= 2 * uu * (Rabs th + Rabs lim)) by (apply Rmult_le_pos; lra).
    assert (6 * 1 <= 2 * PI * IZR m) by (apply Rmult_le_compat; lra). lra. }
  assert (A : Rabs (lim - th) <= Rabs th + Rabs lim) by (unfold Rminus; pose proof (Rabs_triang lim (- th)) as Q; rewrite Rabs_Ropp in Q; lra).
  assert (B : uu * Rabs (lim - th) + ee <= 2 * uu * (Rabs th + Rabs lim)) by nra.
  apply Rabs_le_inv in ED.
  assert (C : bval tp * IZR m <= 2 * PI * IZR m) by (apply Rmult_le_compat_r; lra).
  assert (X : bval tp * IZR m < bval tp * (IZR n + 1)) by lra.
  apply Rmult_lt_reg_l in X; [|lra]. rewrite <- plus_IZR in X. apply lt_IZR in X. lia.
Qed.

(** Every whole-turn alternative that lies within the limits, by a margin of 2^-52 (|theta| + |limit|), is listed. *)
Theorem C81_complete : forall L dot (lower upper theta : b64) (n : Z), n <> 0%Z ->
  bfin (b_sub upper theta) -> bfin (b_sub theta lower) ->
  bval lower + 2 * uu * (Rabs (bval theta) + Rabs (bval lower)) <= bval theta + 2 * PI * IZR n
    <= bval upper - 2 * uu * (Rabs (bval theta) + Rabs (bval upper)) ->
  exists x, In x (g_equiv1 (b64_arith L dot) lower upper theta) /\
    (bfin x -> Rabs (bval x - (bval theta + 2 * PI * IZR n)) <= uu * (Rabs (bval theta) + 24 * Rabs (IZR n))).
Proof.
  intros L dot lower upper theta n Hn FU FL [HL HU]. unfold g_equiv1. cbn [b64_arith nfloor nlit npi nmul nadd nsub nofZ].
  pose proof b_pi_err as BP. pose proof two_pi_val as TV. pose proof two_pi_ge as TG.
  assert (TF : bfin (b_mul (b_lit 2 1) b_pi)) by (vm_compute; reflexivity).
  set (tp := b_mul (b_lit 2 1) b_pi) in *.
  assert (TP : 0 < 2 * PI - bval tp <= 4 * uu) by lra.
  destruct (Z.lt_trichotomy n 0) as [N|[N|N]]; [|contradiction|].
  - set (m := (- n)%Z). assert (Em : IZR n = - IZR m) by (unfold m; rewrite opp_IZR; ring). rewrite Em in *. clearbody m.
    pose proof (rnd_err (bval theta - bval lower)) as E1. rewrite <- (sub_val _ _ FL) in E1.
    assert (E1' : Rabs (bval (b_sub theta lower) - (- bval lower - - bval theta)) <= uu * Rabs (- bval lower - - bval theta) + ee)
      by (replace (- bval lower - - bval theta) with (bval theta - bval lower) by ring; exact E1).
    assert (Hm : (1 <= m)%Z) by (assert (0 < IZR m) by (apply IZR_lt in N; lra); apply lt_IZR in H; lia).
    assert (M1 : 1 <= IZR m) by (apply IZR_le; lia).
    destruct (turns_fit (bval tp) tp (- bval theta) (- bval lower) (b_sub theta lower) m eq_refl TF FL) as (k & Hk & Hmk);
      [lra | exact E1' | exact Hm | rewrite !Rabs_Ropp; lra |].
    rewrite Hk. exists (b_sub theta (b_mul tp (b_ofZ m))). split.
    { apply in_or_app. right. apply in_map_iff. exists (Z.to_nat (m - 1)). split; [|apply in_seq; lia].
      replace (Z.of_nat (Z.to_nat (m - 1)) + 1)%Z with m by lia. reflexivity. }
    intros Fx. rewrite Rabs_Ropp, (Rabs_right (IZR m)) by lra.
    destruct (sub_fin _ _ Fx) as [Fth FP]. destruct (mul_fin _ _ FP) as [_ Ff].
    pose proof (rnd_err (IZR m)) as E2. rewrite <- (ofZ_val _ Ff) in E2. rewrite (Rabs_right (IZR m)) in E2 by lra.
    pose proof (rnd_err (bval tp * bval (b_ofZ m))) as E3. rewrite <- (mul_val _ _ FP) in E3.
    pose proof (rnd_err (bval theta - bval (b_mul tp (b_ofZ m)))) as E4. rewrite <- (sub_val _ _ Fx) in E4.
    set (x := bval (b_sub theta (b_mul tp (b_ofZ m)))) in *. set (P := bval (b_mul tp (b_ofZ m))) in *.
    assert (E4' : Rabs (- x - (- bval theta + P)) <= uu * Rabs (- bval theta + P) + ee).
    { replace (- x - (- bval theta + P)) with (- (x - (bval theta - P))) by ring. replace (- bval theta + P) with (- (bval theta - P)) by ring.
      rewrite !Rabs_Ropp. exact E4. }
    pose proof (turn_err _ _ _ _ _ M1 TP E2 _ E3 E4') as B. rewrite Rabs_Ropp in B.
    replace (x - (bval theta + 2 * PI * - IZR m)) with (- (- x - (- bval theta + 2 * PI * IZR m))) by ring. rewrite Rabs_Ropp. exact B.
  - pose proof (rnd_err (bval upper - bval theta)) as E1. rewrite <- (sub_val _ _ FU) in E1.
    assert (M1 : 1 <= IZR n) by (apply IZR_le; lia).
    destruct (turns_fit (bval tp) tp (bval theta) (bval upper) (b_sub upper theta) n eq_refl TF FU) as (k & Hk & Hmk);
      [lra | exact E1 | lia | lra |].
    rewrite Hk. exists (b_add theta (b_mul tp (b_ofZ n))). split.
    { apply in_or_app. left. apply in_map_iff. exists (Z.to_nat (n - 1)). split; [|apply in_seq; lia].
      replace (Z.of_nat (Z.to_nat (n - 1)) + 1)%Z with n by lia. reflexivity. }
    intros Fx. rewrite (Rabs_right (IZR n)) by lra.
    destruct (add_fin _ _ Fx) as [Fth FP]. destruct (mul_fin _ _ FP) as [_ Ff].
    pose proof (rnd_err (IZR n)) as E2. rewrite <- (ofZ_val _ Ff) in E2. rewrite (Rabs_right (IZR n)) in E2 by lra.
    pose proof (rnd_err (bval tp * bval (b_ofZ n))) as E3. rewrite <- (mul_val _ _ FP) in E3.
    pose proof (rnd_err (bval theta + bval (b_mul tp (b_ofZ n)))) as E4. rewrite <- (add_val _ _ Fx) in E4.
    exact (turn_err _ _ _ _ _ M1 TP E2 _ E3 E4).
Qed.
(** limits -20 and 20 and the angle 1: the turns -3 .. 3 *)
Example C81_complete_ex : forall n : Z, (-3 <= n <= 3)%Z -> n <> 0%Z ->
  bfin (b_sub (b_ofZ 20) (b_ofZ 1)) /\ bfin (b_sub (b_ofZ 1) (b_ofZ (-20))) /\
  bval (b_ofZ (-20)) + 2 * uu * (Rabs (bval (b_ofZ 1)) + Rabs (bval (b_ofZ (-20)))) <= bval (b_ofZ 1) + 2 * PI * IZR n
    <= bval (b_ofZ 20) - 2 * uu * (Rabs (bval (b_ofZ 1)) + Rabs (bval (b_ofZ 20))).
Proof.
  intros n [N1 N2] _. split; [vm_compute; reflexivity|]. split; [vm_compute; reflexivity|].
  replace (bval (b_ofZ 1)) with 1 by (vm_compute; lra). replace (bval (b_ofZ 20)) with 20 by (vm_compute; lra).
  replace (bval (b_ofZ (-20))) with (- (20)) by (vm_compute; lra). rewrite Rabs_Ropp, (Rabs_right 1), (Rabs_right 20) by lra.
  pose proof uu_small. pose proof uu_pos. pose proof pi_lo. pose proof pi_hi.
  assert (-3 <= IZR n <= 3) by (split; apply IZR_le; lia).
  assert (- (9.43) <= PI * IZR n <= 9.43) by (split; nra). lra.
Qed.
Print Assumptions C81_turns.
Print Assumptions C81_complete.
