(** Property C80, continued: whatever finite quaternion slerp returns in binary64 has unit length up to rounding. *)
From Coq Require Import Reals ZArith List Bool Lra Lia.
From Flocq Require Import Core.Core IEEE754.BinarySingleNaN.
From Verif Require Import LinAlg RealAux Py FactsReal ModelFloat FactsB64 FactsExact PropB64 PropPi.
Import ListNotations.
Open Scope R_scope.

Lemma uu_val : uu = / 9007199254740992. Proof. unfold uu; cbn; reflexivity. Qed.
Lemma ee_tiny : ee <= uu * bpow radix2 (-900).
Proof. unfold ee, uu. rewrite <- bpow_plus. apply bpow_le. lia. Qed.

(* ---- dot products of four terms ---- *)
Lemma four : ((1 + uu) * (1 + uu)) ^ 4 - 1 <= 8.1 * uu /\ growE 4 0 <= 14 * ee.
Proof.
  pose proof uu_pos as P. pose proof uu_val as V. pose proof ee_pos as P'. assert (uu <= 1 / 1000000000000000) by lra. split.
  - assert (U2 : 0 <= uu * uu <= uu * (1 / 1000000000000000)) by (split; nra).
    assert (V1 : (1 + uu) * (1 + uu) <= 1 + 2.001 * uu) by lra.
    assert (V0 : 1 <= (1 + uu) * (1 + uu)) by nra.
    set (v := (1 + uu) * (1 + uu)) in *.
    assert (v * v <= (1 + 2.001 * uu) * (1 + 2.001 * uu)) by (apply Rmult_le_compat; lra).
    assert (W : 1 <= v * v <= 1 + 4.01 * uu) by (split; nra).
    assert ((v * v) * (v * v) <= (1 + 4.01 * uu) * (1 + 4.01 * uu)) by (apply Rmult_le_compat; lra).
    cbn [pow]. lra.
  - assert (G : forall E, 0 <= E <= 12 * ee -> 0 <= (1 + uu) * (E + 3 * ee) <= E + 3.1 * ee) by (intros E HE; split; nra).
    cbn [growE]. pose proof (G 0 ltac:(lra)) as X1. pose proof (G _ (conj (proj1 X1) (Rle_trans _ _ (12 * ee) (proj2 X1) ltac:(lra)))) as X2.
    pose proof (G _ (conj (proj1 X2) (Rle_trans _ _ (12 * ee) (proj2 X2) ltac:(lra)))) as X3.
    pose proof (G _ (conj (proj1 X3) (Rle_trans _ _ (12 * ee) (proj2 X3) ltac:(lra)))) as X4. lra.
Qed.
Lemma two : ((1 + uu) * (1 + uu)) ^ 2 - 1 <= 4.1 * uu /\ growE 2 0 <= 7 * ee.
Proof.
  pose proof uu_pos as P. pose proof uu_val as V. pose proof ee_pos as P'. assert (uu <= 1 / 1000000000000000) by lra. split.
  - assert (U2 : 0 <= uu * uu <= uu * (1 / 1000000000000000)) by (split; nra).
    assert (V1 : (1 + uu) * (1 + uu) <= 1 + 2.001 * uu) by lra.
    assert (V0 : 1 <= (1 + uu) * (1 + uu)) by nra.
    set (v := (1 + uu) * (1 + uu)) in *.
    assert (v * v <= (1 + 2.001 * uu) * (1 + 2.001 * uu)) by (apply Rmult_le_compat; lra).
    cbn [pow]. lra.
  - assert (G : forall E, 0 <= E <= 12 * ee -> 0 <= (1 + uu) * (E + 3 * ee) <= E + 3.1 * ee) by (intros E HE; split; nra).
    cbn [growE]. pose proof (G 0 ltac:(lra)) as X1. pose proof (G _ (conj (proj1 X1) (Rle_trans _ _ (12 * ee) (proj2 X1) ltac:(lra)))) as X2. lra.
Qed.

Definition dot4 (a b c d x y z w : R) : R := a * x + b * y + c * z + d * w.
Definition abs4 (a b c d x y z w : R) : R := Rabs (a * x) + Rabs (b * y) + Rabs (c * z) + Rabs (d * w).

Lemma abs4_nonneg a b c d x y z w : 0 <= abs4 a b c d x y z w.
Proof. unfold abs4. pose proof (Rabs_pos (a * x)). pose proof (Rabs_pos (b * y)). pose proof (Rabs_pos (c * z)). pose proof (Rabs_pos (d * w)). lra. Qed.

(** two partial sums of two products *)
Lemma dot_halves p q r s : bfin (b_add (sum_seq [p; q]) (sum_seq [r; s])) ->
  fin_pairs [p; q; r; s] /\
  Rabs (bval (b_add (sum_seq [p; q]) (sum_seq [r; s])) - dot_pairs [p; q; r; s]) <= 9 * uu * abs_pairs [p; q; r; s] + 20 * ee.
Proof.
  intros F. destruct (add_fin _ _ F) as [F1 F2].
  destruct (sum_seq_acc _ F1) as [G1 (_ & A1 & B1)]. destruct (sum_seq_acc _ F2) as [G2 (_ & A2 & B2)].
  cbn [length] in A1, A2. destruct two as [T1 T2].
  split.
  { unfold fin_pairs in *. change [p; q; r; s] with ([p; q] ++ [r; s]). apply Forall_app. split; assumption. }
  replace (dot_pairs [p; q; r; s]) with (dot_pairs [p; q] + dot_pairs [r; s]) by (cbn; ring).
  replace (abs_pairs [p; q; r; s]) with (abs_pairs [p; q] + abs_pairs [r; s]) by (cbn; ring).
  assert (N : forall l, 0 <= abs_pairs l).
  { induction l as [|x l IH]; cbn [abs_pairs fold_right]; [lra|]. fold (abs_pairs l). pose proof (Rabs_pos (bval (fst x) * bval (snd x))). lra. }
  pose proof (N [p; q]) as N1. pose proof (N [r; s]) as N2.
  set (D1 := dot_pairs [p; q]) in *. set (D2 := dot_pairs [r; s]) in *. set (A := abs_pairs [p; q]) in *. set (B := abs_pairs [r; s]) in *.
  set (s1 := bval (sum_seq [p; q])) in *. set (s2 := bval (sum_seq [r; s])) in *.
  pose proof (rnd_err (s1 + s2)) as E. unfold s1, s2 in E. rewrite <- (add_val _ _ F) in E. fold s1 s2 in E.
  pose proof uu_pos as P. pose proof uu_val as V. pose proof ee_pos as P'. assert (US : uu <= 1 / 1000000000000000) by lra.
  assert (M1 : Rabs (s1 - D1) <= 4.1 * uu * A + 7 * ee).
  { pose proof (Rmult_le_compat_r A _ _ N1 T1). lra. }
  assert (M2 : Rabs (s2 - D2) <= 4.1 * uu * B + 7 * ee).
  { pose proof (Rmult_le_compat_r B _ _ N2 T1). lra. }
  assert (M : Rabs ((s1 + s2) - (D1 + D2)) <= 4.1 * uu * (A + B) + 14 * ee).
  { replace (s1 + s2 - (D1 + D2)) with ((s1 - D1) + (s2 - D2)) by ring. pose proof (Rabs_triang (s1 - D1) (s2 - D2)). lra. }
  assert (Q : Rabs (s1 + s2) <= 1.1 * (A + B) + 14 * ee).
  { replace (s1 + s2) with ((s1 + s2 - (D1 + D2)) + (D1 + D2)) by ring.
    pose proof (Rabs_triang (s1 + s2 - (D1 + D2)) (D1 + D2)). pose proof (Rabs_triang D1 D2).
    assert (uu * (A + B) <= 1 / 1000000000000000 * (A + B)) by (apply Rmult_le_compat_r; lra). lra. }
  set (x := bval (b_add (sum_seq [p; q]) (sum_seq [r; s]))) in *.
  replace (x - (D1 + D2)) with ((x - (s1 + s2)) + (s1 + s2 - (D1 + D2))) by ring.
  pose proof (Rabs_triang (x - (s1 + s2)) (s1 + s2 - (D1 + D2))).
  assert (uu * Rabs (s1 + s2) <= uu * (1.1 * (A + B) + 14 * ee)) by (apply Rmult_le_compat_l; lra).
  assert (uu * (14 * ee) <= 1 * ee) by nra.
  assert (0 <= uu * (A + B)) by (apply Rmult_le_pos; lra).
  lra.
Qed.

Lemma dot4_ok dot : In dot b_dots -> forall a b c d x y z w, bfin (dot [a; b; c; d] [x; y; z; w]) ->
  Forall bfin [a; b; c; d; x; y; z; w] /\
  Rabs (bval (dot [a; b; c; d] [x; y; z; w]) - dot4 (bval a) (bval b) (bval c) (bval d) (bval x) (bval y) (bval z) (bval w))
   <= 9 * uu * abs4 (bval a) (bval b) (bval c) (bval d) (bval x) (bval y) (bval z) (bval w) + 20 * ee.
Proof.
  intros HI a b c d x y z w.
  pose proof uu_pos as P. pose proof ee_pos as P'.
  assert (K : forall s l, (l = [(a, x); (b, y); (c, z); (d, w)] \/ l = [(d, w); (c, z); (b, y); (a, x)] \/ l = [(a, x); (c, z); (b, y); (d, w)]) ->
    (fin_pairs l /\ Rabs (bval s - dot_pairs l) <= 9 * uu * abs_pairs l + 20 * ee) ->
    Forall bfin [a; b; c; d; x; y; z; w] /\
    Rabs (bval s - dot4 (bval a) (bval b) (bval c) (bval d) (bval x) (bval y) (bval z) (bval w))
     <= 9 * uu * abs4 (bval a) (bval b) (bval c) (bval d) (bval x) (bval y) (bval z) (bval w) + 20 * ee).
  { intros s l El [Fl Hs]. split.
    - destruct El as [-> | [-> | ->]]; inversion Fl as [|? ? [? ?] F1]; inversion F1 as [|? ? [? ?] F2]; inversion F2 as [|? ? [? ?] F3];
        inversion F3 as [|? ? [? ?] F4]; cbn [fst snd] in *; repeat apply Forall_cons; try apply Forall_nil; assumption.
    - replace (dot_pairs l) with (dot4 (bval a) (bval b) (bval c) (bval d) (bval x) (bval y) (bval z) (bval w)) in Hs
        by (unfold dot4; destruct El as [-> | [-> | ->]]; cbn; ring).
      replace (abs_pairs l) with (abs4 (bval a) (bval b) (bval c) (bval d) (bval x) (bval y) (bval z) (bval w)) in Hs
        by (unfold abs4; destruct El as [-> | [-> | ->]]; cbn; ring).
      exact Hs. }
  assert (S : forall s l, length l = 4%nat -> fin_pairs l /\ acc (((1 + uu) * (1 + uu)) ^ length l) (growE (length l) 0) s (dot_pairs l) (abs_pairs l) ->
    fin_pairs l /\ Rabs (bval s - dot_pairs l) <= 9 * uu * abs_pairs l + 20 * ee).
  { intros s l Hl [Fl (_ & Hs & Ht)]. split; [exact Fl|]. rewrite Hl in Hs. destruct four as [T1 T2].
    assert (N : 0 <= abs_pairs l) by (pose proof (Rabs_pos (dot_pairs l)); lra).
    pose proof (Rmult_le_compat_r _ _ _ N T1). assert (0 <= uu * abs_pairs l) by (apply Rmult_le_pos; lra). lra. }
  cbn [b_dots In] in HI. destruct HI as [<- | [<- | [<- | [<- | [<- | [<- | []]]]]]]; intros F; cbn [combine rev app sum_pairs sum_lanes] in *.
  - eapply K; [left; reflexivity|]. apply S; [reflexivity|]. apply sum_seq_acc, F.
  - eapply K; [left; reflexivity|]. apply S; [reflexivity|]. apply sum_fma_acc, F.
  - eapply K; [right; left; reflexivity|]. apply S; [reflexivity|]. apply sum_seq_acc, F.
  - eapply K; [right; left; reflexivity|]. apply S; [reflexivity|]. apply sum_fma_acc, F.
  - eapply K; [left; reflexivity|]. apply dot_halves, F.
  - eapply K; [right; right; reflexivity|]. apply dot_halves, F.
Qed.

(** no overflow for entries of moderate size *)
Lemma dot4_fin dot : In dot b_dots -> forall a b c d x y z w, Forall (upto 400) [a; b; c; d; x; y; z; w] ->
  bfin (dot [a; b; c; d] [x; y; z; w]).
Proof.
  intros HI a b c d x y z w HF.
  inversion HF as [|? ? Ua HF1]; inversion HF1 as [|? ? Ub HF2]; inversion HF2 as [|? ? Uc HF3]; inversion HF3 as [|? ? Ud HF4];
    inversion HF4 as [|? ? Ux HF5]; inversion HF5 as [|? ? Uy HF6]; inversion HF6 as [|? ? Uz HF7]; inversion HF7 as [|? ? Uw _]; subst.
  clear HF HF1 HF2 HF3 HF4 HF5 HF6 HF7.
  assert (S1 : forall n s x y, (0 <= n < 998)%Z -> upto 400 x -> upto 400 y -> upto n s -> (801 <= n)%Z -> upto (n + 1) (b_add s (b_mul x y))).
  { intros n s x0 y0 R Ux0 Uy0 Us N. apply upto_add; [lia | exact Us|]. apply (upto_weak 800); [lia|]. apply (upto_mul 400 400); auto; lia. }
  assert (S2 : forall n s x y, (0 <= n < 998)%Z -> upto 400 x -> upto 400 y -> upto n s -> (801 <= n)%Z -> upto (n + 1) (b_fma x y s)).
  { intros n s x0 y0 R Ux0 Uy0 Us N. replace (n + 1)%Z with (400 + (n - 400) + 1)%Z by lia. apply upto_fma; [lia | exact Ux0 | apply (upto_weak 400); [lia | exact Uy0]|].
    apply (upto_weak n); [lia | exact Us]. }
  assert (F1 : Forall (fun p => upto 400 (fst p) /\ upto 400 (snd p)) [(a, x); (b, y); (c, z); (d, w)]) by (repeat apply Forall_cons; try apply Forall_nil; split; assumption).
  assert (F2 : Forall (fun p => upto 400 (fst p) /\ upto 400 (snd p)) [(d, w); (c, z); (b, y); (a, x)]) by (repeat apply Forall_cons; try apply Forall_nil; split; assumption).
  assert (Half : forall p q, upto 400 (fst p) /\ upto 400 (snd p) -> upto 400 (fst q) /\ upto 400 (snd q) -> upto 803 (sum_seq [p; q])).
  { intros p q [P1 P2] [Q1 Q2]. unfold sum_seq. cbn [fold_left]. apply (S1 802%Z); try assumption; try lia. apply (S1 801%Z); try assumption; try lia. apply upto_zero. }
  assert (H1 : upto 804 (b_add (sum_seq [(a, x); (b, y)]) (sum_seq [(c, z); (d, w)]))) by (apply (upto_add 803); [lia | |]; apply Half; split; assumption).
  assert (H2 : upto 804 (b_add (sum_seq [(a, x); (c, z)]) (sum_seq [(b, y); (d, w)]))) by (apply (upto_add 803); [lia | |]; apply Half; split; assumption).
  cbn [b_dots In] in HI. destruct HI as [<- | [<- | [<- | [<- | [<- | [<- | []]]]]]]; cbn [combine rev app sum_pairs sum_lanes];
    [| | | | apply H1 | apply H2]; unfold sum_seq, sum_fma;
     (apply (fold_upto (fun s p => b_add s (b_mul (fst p) (snd p)))) with (n := 801%Z) || apply (fold_upto (fun s p => b_fma (fst p) (snd p) s)) with (n := 801%Z));
     first [assumption | apply upto_zero | lia | cbn; lia | (intros n s x0 y0 R U1 U2 U3 N; (apply S1 || apply S2); assumption)].
Qed.

(* ---- normalisation ---- *)
Definition sq4 (a b c d : R) : R := a * a + b * b + c * c + d * d.
Lemma sq4_entries a b c d : a * a <= sq4 a b c d /\ b * b <= sq4 a b c d /\ c * c <= sq4 a b c d /\ d * d <= sq4 a b c d.
Proof. unfold sq4. pose proof (Rle_0_sqr a). pose proof (Rle_0_sqr b). pose proof (Rle_0_sqr c). pose proof (Rle_0_sqr d). unfold Rsqr in *. lra. Qed.

(** the length of a quaternion that is neither huge nor tiny *)
Lemma norm4 L dot a b c d : In dot b_dots -> Forall (upto 400) [a; b; c; d] ->
  bpow radix2 (-800) <= sq4 (bval a) (bval b) (bval c) (bval d) ->
  let N := sqrt (sq4 (bval a) (bval b) (bval c) (bval d)) in
  bfin (l_norm (b64_arith L dot) [a; b; c; d]) /\ 0 < N /\
  Rabs (bval (l_norm (b64_arith L dot) [a; b; c; d]) - N) <= 5.7 * uu * N.
Proof.
  intros HD HF HS N. unfold l_norm. cbn [nsqrt ndot b64_arith].
  assert (HF8 : Forall (upto 400) [a; b; c; d; a; b; c; d]) by (apply (proj2 (Forall_app _ [a; b; c; d] [a; b; c; d])); split; exact HF).
  pose proof (dot4_fin dot HD _ _ _ _ _ _ _ _ HF8) as FD. destruct (dot4_ok dot HD _ _ _ _ _ _ _ _ FD) as [_ ED].
  set (D := dot [a; b; c; d] [a; b; c; d]) in *.
  set (S := sq4 (bval a) (bval b) (bval c) (bval d)) in *.
  assert (E1 : dot4 (bval a) (bval b) (bval c) (bval d) (bval a) (bval b) (bval c) (bval d) = S) by reflexivity.
  assert (E2 : abs4 (bval a) (bval b) (bval c) (bval d) (bval a) (bval b) (bval c) (bval d) = S).
  { unfold abs4. rewrite !(Rabs_right (_ * _)) by (apply Rle_ge, Rle_0_sqr). reflexivity. }
  rewrite E1, E2 in ED. clear E1 E2.
  pose proof uu_pos as P. pose proof uu_val as V. pose proof ee_pos as P'. assert (US : uu <= 1 / 1000000000000000) by lra.
  pose proof (bpow_gt_0 radix2 (-800)) as B0.
  assert (T : 20 * ee <= uu * (1 / 100) * S).
  { apply Rle_trans with (uu * (1 / 100) * bpow radix2 (-800)); [|apply Rmult_le_compat_l; lra].
    pose proof ee_tiny. replace (-900)%Z with (-100 + -800)%Z in H by lia. rewrite bpow_plus in H.
    assert (bpow radix2 (-100) <= 1 / 10000) by (apply Rle_trans with (bpow radix2 (-20)); [apply bpow_le; lia | cbn; lra]).
    assert (uu * (bpow radix2 (-100) * bpow radix2 (-800)) <= uu * (1 / 10000 * bpow radix2 (-800))) by (apply Rmult_le_compat_l; [lra|]; apply Rmult_le_compat_r; lra).
    lra. }
  assert (Hd : Rabs (bval D - S) <= 9.01 * uu * S) by lra.
  assert (S0 : 0 < S) by lra. assert (N0 : 0 < N) by (apply sqrt_lt_R0; exact S0).
  assert (NS : N * N = S) by (apply sqrt_sqrt; lra).
  assert (uS : uu * S <= 1 / 1000000000000000 * S) by (apply Rmult_le_compat_r; lra).
  assert (D0 : 0 < bval D) by (apply Rabs_le_inv in Hd; lra).
  destruct (sqrt_range D FD D0) as [FN VN]. split; [exact FN|]. split; [exact N0|].
  set (m := sqrt (bval D)) in *. assert (M0 : 0 < m) by (apply sqrt_lt_R0; exact D0). assert (MS : m * m = bval D) by (apply sqrt_sqrt; lra).
  assert (MN : Rabs (m - N) <= 4.55 * uu * N).
  { assert (HH : Rabs ((m - N) * (m + N)) <= 9.01 * uu * (N * N)) by (replace ((m - N) * (m + N)) with (m * m - N * N) by ring; rewrite MS, NS; exact Hd).
    rewrite Rabs_mult, (Rabs_right (m + N)) in HH by lra.
    assert (ML : 0.999 * N <= m).
    { apply Rnot_lt_le. intros C. assert (m * m < 0.999 * N * (0.999 * N)) by (apply Rmult_le_0_lt_compat; lra).
      apply Rabs_le_inv in Hd. rewrite <- MS, <- NS in Hd. rewrite <- NS in uS. nra. }
    assert (ML2 : 0.99999 * N <= m).
    { apply Rnot_lt_le. intros C. assert (m * m < 0.99999 * N * (0.99999 * N)) by (apply Rmult_le_0_lt_compat; lra).
      apply Rabs_le_inv in Hd. rewrite <- MS, <- NS in Hd. rewrite <- NS in uS. nra. }
    assert (Rabs (m - N) * (1.99999 * N) <= Rabs (m - N) * (m + N)) by (apply Rmult_le_compat_l; [apply Rabs_pos | lra]).
    apply Rmult_le_reg_r with (1.99999 * N); [lra|]. assert (0 <= uu * (N * N)) by (apply Rmult_le_pos; [lra | nra]). lra. }
  pose proof (rnd_err m) as ER. rewrite <- VN in ER. rewrite (Rabs_right m) in ER by lra.
  set (n := bval (b_sqrt D)) in *.
  assert (EN : ee <= uu * (1 / 100) * N).
  { assert (NB : bpow radix2 (-400) <= N).
    { apply Rnot_lt_le. intros C. pose proof (bpow_gt_0 radix2 (-400)).
      assert (N * N < bpow radix2 (-400) * bpow radix2 (-400)) by (apply Rmult_le_0_lt_compat; lra).
      rewrite <- bpow_plus in H0. change (-400 + -400)%Z with (-800)%Z in H0. lra. }
    pose proof ee_tiny. replace (-900)%Z with (-500 + -400)%Z in H by lia. rewrite bpow_plus in H.
    assert (bpow radix2 (-500) <= 1 / 10000) by (apply Rle_trans with (bpow radix2 (-20)); [apply bpow_le; lia | cbn; lra]).
    pose proof (bpow_gt_0 radix2 (-400)).
    assert (uu * (bpow radix2 (-500) * bpow radix2 (-400)) <= uu * (1 / 10000 * bpow radix2 (-400))) by (apply Rmult_le_compat_l; [lra|]; apply Rmult_le_compat_r; lra).
    assert (uu * bpow radix2 (-400) <= uu * N) by (apply Rmult_le_compat_l; lra). lra. }
  replace (n - N) with ((n - m) + (m - N)) by ring. pose proof (Rabs_triang (n - m) (m - N)).
  assert (uu * m <= uu * (1.001 * N)).
  { apply Rmult_le_compat_l; [lra|]. apply Rabs_le_inv in MN. assert (uu * N <= 1 / 1000000000000000 * N) by (apply Rmult_le_compat_r; lra). lra. }
  assert (0 <= uu * N) by (apply Rmult_le_pos; lra). lra.
Qed.

Lemma div_near z n N : bfin z -> 0 < N -> Rabs (bval z) <= N -> Rabs (bval n - N) <= 5.7 * uu * N ->
  bfin (b_div z n) /\ Rabs (bval (b_div z n) - bval z / N) <= 6.8 * uu * Rabs (bval z / N) + ee /\ Rabs (bval z / N) <= 1.
Proof.
  intros Fz N0 Hz Hn.
  pose proof uu_pos as P. pose proof uu_val as V. pose proof ee_pos as P'. assert (US : uu <= 1 / 1000000000000000) by lra.
  set (y := bval z / N). assert (Y : Rabs y <= 1).
  { unfold y, Rdiv. rewrite Rabs_mult, Rabs_inv, (Rabs_right N) by lra. apply Rmult_le_reg_r with N; [exact N0|].
    rewrite Rmult_assoc, Rinv_l, Rmult_1_r, Rmult_1_l by lra. exact Hz. }
  set (h := bval n / N - 1).
  assert (HH : Rabs h <= 5.7 * uu).
  { unfold h. replace (bval n / N - 1) with ((bval n - N) / N) by (field; lra). unfold Rdiv. rewrite Rabs_mult, Rabs_inv, (Rabs_right N) by lra.
    apply Rmult_le_reg_r with N; [exact N0|]. rewrite Rmult_assoc, Rinv_l, Rmult_1_r by lra. exact Hn. }
  assert (H1 : 0.999 <= 1 + h) by (apply Rabs_le_inv in HH; lra).
  assert (EN : bval n = N * (1 + h)) by (unfold h; field; lra).
  assert (NN : 0 < bval n) by (rewrite EN; apply Rmult_lt_0_compat; lra).
  assert (Q : bval z / bval n = y * / (1 + h)) by (rewrite EN; unfold y; field; lra).
  assert (QE : bval z / bval n - y = y * (- h * / (1 + h))) by (rewrite Q; field; lra).
  assert (I1 : / (1 + h) <= 1.002).
  { apply Rmult_le_reg_r with (1 + h); [lra|]. rewrite Rinv_l by lra. lra. }
  assert (I0 : 0 < / (1 + h)) by (apply Rinv_0_lt_compat; lra).
  assert (K : Rabs (bval z / bval n - y) <= 5.72 * uu * Rabs y).
  { rewrite QE, Rabs_mult, Rabs_mult, Rabs_Ropp, (Rabs_right (/ (1 + h))) by lra.
    assert (Rabs h * / (1 + h) <= 5.7 * uu * 1.002) by (apply Rmult_le_compat; try lra; apply Rabs_pos).
    rewrite Rmult_comm. apply Rmult_le_compat_r; [apply Rabs_pos | lra]. }
  assert (uy : uu * Rabs y <= 1 / 1000000000000000 * Rabs y) by (apply Rmult_le_compat_r; [apply Rabs_pos | lra]).
  assert (A : Rabs (bval z / bval n) <= 1.0001 * Rabs y).
  { replace (bval z / bval n) with ((bval z / bval n - y) + y) by ring. pose proof (Rabs_triang (bval z / bval n - y) y).
    pose proof (Rabs_pos y). lra. }
  destruct (div_range z n Fz) as [F W]; [lra | apply in_range; apply Rle_trans with (bpow radix2 1); [cbn; lra | apply bpow_le; lia]|].
  split; [exact F|]. split; [|exact Y]. rewrite W.
  pose proof (rnd_err (bval z / bval n)) as R.
  replace (rnd (bval z / bval n) - y) with ((rnd (bval z / bval n) - bval z / bval n) + (bval z / bval n - y)) by ring.
  pose proof (Rabs_triang (rnd (bval z / bval n) - bval z / bval n) (bval z / bval n - y)).
  assert (uu * Rabs (bval z / bval n) <= uu * (1.0001 * Rabs y)) by (apply Rmult_le_compat_l; lra).
  assert (0 <= uu * Rabs y) by (apply Rmult_le_pos; [lra | apply Rabs_pos]). lra.
Qed.

Lemma sq_near x y : Rabs y <= 1 -> Rabs (x - y) <= 6.8 * uu * Rabs y + ee -> Rabs (x * x - y * y) <= 13.7 * uu * (y * y) + 3 * ee.
Proof.
  intros Y H. pose proof uu_pos as P. pose proof uu_val as V. pose proof ee_pos as P'. assert (US : uu <= 1 / 1000000000000000) by lra.
  assert (ES : ee <= 1 / 1000000000) by (pose proof ee_le_uu; lra).
  set (t := x - y) in *. replace (x * x - y * y) with (2 * (y * t) + t * t) by (unfold t; ring).
  pose proof (Rabs_triang (2 * (y * t)) (t * t)) as T. rewrite !Rabs_mult, (Rabs_right 2) in T by lra.
  assert (YY : Rabs y * Rabs y = y * y) by (rewrite <- Rabs_mult; apply Rabs_right, Rle_ge, Rle_0_sqr).
  set (a := Rabs y) in *. assert (A0 : 0 <= a) by apply Rabs_pos. set (b := Rabs t) in *. assert (B0 : 0 <= b) by apply Rabs_pos.
  rewrite <- YY.
  assert (B1 : a * b <= 6.8 * uu * (a * a) + a * ee) by (replace (6.8 * uu * (a * a) + a * ee) with (a * (6.8 * uu * a + ee)) by ring; apply Rmult_le_compat_l; lra).
  assert (B2 : b * b <= (6.8 * uu * a + ee) * (6.8 * uu * a + ee)) by (apply Rmult_le_compat; lra).
  assert (B3 : (6.8 * uu * a + ee) * (6.8 * uu * a + ee) <= 0.01 * uu * (a * a) + 0.01 * ee).
  { replace ((6.8 * uu * a + ee) * (6.8 * uu * a + ee)) with (46.24 * uu * (uu * (a * a)) + (13.6 * (uu * a) + ee) * ee) by lra.
    assert (uu * (uu * (a * a)) <= 1 / 1000000000000000 * (uu * (a * a))) by (apply Rmult_le_compat_r; [apply Rmult_le_pos; [lra | nra] | lra]).
    assert (uu * a <= uu * 1) by (apply Rmult_le_compat_l; lra).
    assert ((13.6 * (uu * a) + ee) * ee <= 0.01 * ee) by (apply Rmult_le_compat_r; lra). 
    assert (0 <= uu * (a * a)) by (apply Rmult_le_pos; [lra | nra]). lra. }
  assert (a * ee <= 1 * ee) by (apply Rmult_le_compat_r; lra).
  assert (0 <= uu * (a * a)) by (apply Rmult_le_pos; [lra | nra]). lra.
Qed.

(** A quaternion that is neither huge nor tiny, divided by its computed length. *)
Lemma normal4 L dot a b c d : In dot b_dots -> Forall (upto 400) [a; b; c; d] ->
  bpow radix2 (-800) <= sq4 (bval a) (bval b) (bval c) (bval d) ->
  exists e f g h : b64, l_div (b64_arith L dot) [a; b; c; d] (l_norm (b64_arith L dot) [a; b; c; d]) = [e; f; g; h] /\
    Forall bfin [e; f; g; h] /\ Rabs (sq4 (bval e) (bval f) (bval g) (bval h) - 1) <= 14 * uu.
Proof.
  intros HD HF HS. destruct (norm4 L dot a b c d HD HF HS) as (FN & N0 & HN).
  set (n := l_norm (b64_arith L dot) [a; b; c; d]) in *. set (S := sq4 (bval a) (bval b) (bval c) (bval d)) in *.
  set (N := sqrt S) in *.
  assert (S0 : 0 <= S) by (pose proof (bpow_gt_0 radix2 (-800)); lra).
  assert (NS : N * N = S) by (apply sqrt_sqrt; exact S0).
  assert (LE : forall z, bval z * bval z <= S -> Rabs (bval z) <= N).
  { intros z Hz. unfold N. rewrite <- (sqrt_square (Rabs (bval z))) by apply Rabs_pos. apply sqrt_le_1_alt.
    pose proof (Rsqr_abs (bval z)) as Q. unfold Rsqr in Q. lra. }
  destruct (sq4_entries (bval a) (bval b) (bval c) (bval d)) as (A1 & B1 & C1 & D1). fold S in A1, B1, C1, D1.
  inversion HF as [|? ? Ua HF1]; inversion HF1 as [|? ? Ub HF2]; inversion HF2 as [|? ? Uc HF3]; inversion HF3 as [|? ? Ud _]; subst.
  destruct (div_near a n N (proj1 Ua) N0 (LE _ A1) HN) as (Fa & Ea & Ya).
  destruct (div_near b n N (proj1 Ub) N0 (LE _ B1) HN) as (Fb & Eb & Yb).
  destruct (div_near c n N (proj1 Uc) N0 (LE _ C1) HN) as (Fc & Ec & Yc).
  destruct (div_near d n N (proj1 Ud) N0 (LE _ D1) HN) as (Fd & Ed & Yd).
  exists (b_div a n), (b_div b n), (b_div c n), (b_div d n). split; [reflexivity|].
  split; [repeat apply Forall_cons; try apply Forall_nil; assumption|].
  apply sq_near in Ea; [|exact Ya]. apply sq_near in Eb; [|exact Yb]. apply sq_near in Ec; [|exact Yc]. apply sq_near in Ed; [|exact Yd].
  assert (ONE : bval a / N * (bval a / N) + bval b / N * (bval b / N) + bval c / N * (bval c / N) + bval d / N * (bval d / N) = 1).
  { replace (bval a / N * (bval a / N) + bval b / N * (bval b / N) + bval c / N * (bval c / N) + bval d / N * (bval d / N)) with (S / (N * N))
      by (unfold S, sq4; field; lra). rewrite NS. field. rewrite <- NS. nra. }
  pose proof uu_pos as P. pose proof ee_pos as P'.
  assert (ET : 12 * ee <= 0.1 * uu).
  { pose proof ee_tiny. assert (bpow radix2 (-900) <= 1 / 1000000) by (apply Rle_trans with (bpow radix2 (-20)); [apply bpow_le; lia | cbn; lra]).
    assert (uu * bpow radix2 (-900) <= uu * (1 / 1000000)) by (apply Rmult_le_compat_l; lra). lra. }
  apply Rabs_le_inv in Ea, Eb, Ec, Ed. unfold sq4.
  set (ya := bval a / N) in *. set (yb := bval b / N) in *. set (yc := bval c / N) in *. set (yd := bval d / N) in *.
  pose proof (f_equal (Rmult uu) ONE) as O2. apply Rabs_le. split; lra.
Qed.

(* ---- sine and arc cosine ---- *)
Lemma sin_lb3 y : 0 <= y <= 1.1 -> 0.79 * y <= sin y.
Proof.
  intros H. assert (y <= PI) by (pose proof PI2_3_2; lra).
  destruct (SIN y) as [K _]; try lra. eapply Rle_trans; [|exact K].
  unfold sin_lb, sin_approx, sin_term. cbn [sum_f_R0 Nat.mul Nat.add pow]. 
  replace (INR (fact 1)) with 1 by (cbn; lra).
  replace (INR (fact 3)) with 6 by (cbn; lra).
  replace (INR (fact 5)) with 120 by (cbn; lra).
  replace (INR (fact 7)) with 5040 by (rewrite INR_IZR_INZ; apply f_equal; reflexivity).
  assert (Y : 0 <= y * y <= 1.21) by nra.
  set (z := y * y) in *.
  match goal with |- _ <= ?e => replace e with (y * (1 - z / 6 + z * z / 120 * (1 - z / 42))) by (unfold z; field) end.
  assert (0 <= z * z / 120 * (1 - z / 42)) by nra.
  rewrite Rmult_comm. apply Rmult_le_compat_l; lra.
Qed.
Lemma sin_lb2 x : 0 <= x <= 2.15 -> 0.3 * x <= sin x.
Proof.
  intros H. replace x with (2 * (x / 2)) at 2 by field. rewrite sin_2a.
  pose proof (sin_lb3 (x / 2) ltac:(lra)) as S1. pose proof (sin_lb3 (x / 4) ltac:(lra)) as S2.
  assert (C : 0.42 <= cos (x / 2)).
  { replace (x / 2) with (2 * (x / 4)) by field. rewrite cos_2a_sin.
    assert (sin (x / 4) <= x / 4) by (destruct (Rle_lt_or_eq_dec 0 (x / 4) ltac:(lra)) as [P|P]; [left; apply sin_lt_x; exact P | rewrite <- P, sin_0; lra]).
    assert (sin (x / 4) * sin (x / 4) <= 0.5375 * 0.5375) by (apply Rmult_le_compat; lra). lra. }
  assert (0.79 * (x / 2) * 0.42 <= sin (x / 2) * cos (x / 2)) by (apply Rmult_le_compat; lra). lra.
Qed.
Lemma acos_ub c : -1/2 <= c <= 1 -> 0 <= acos c <= 2.1.
Proof.
  intros H. pose proof (acos_bound c) as B. split; [lra|].
  apply Rle_trans with (2 * (PI / 3)); [|pose proof pi_hi; lra].
  apply Rnot_lt_le. intros C. assert (cos (acos c) < cos (2 * (PI / 3))) by (apply cos_decreasing_1; pose proof PI_RGT_0; lra).
  rewrite cos_acos in H0 by lra. pose proof cos_2PI3. lra.
Qed.

(** What slerp needs of the math library: sin is total on the finite numbers and within 2^-52, acos is finite exactly on
    [-1, 1], within 2^-51, and NaN beyond. *)
Definition slerp_libm (L : libm) : Prop :=
  (forall x, bfin x -> bfin (m_sin L x) /\ Rabs (bval (m_sin L x) - sin (bval x)) <= 2 * uu) /\
  (forall x, bfin x -> Rabs (bval x) <= 1 -> bfin (m_acos L x) /\ Rabs (bval (m_acos L x) - acos (bval x)) <= 4 * uu).

Lemma b_lt_iff x y : bfin x -> bfin y -> (b_lt x y = true <-> bval x < bval y).
Proof.
  intros Fx Fy. unfold b_lt. rewrite Bcompare_correct by assumption. fold (bval x) (bval y).
  destruct (Rcompare_spec (bval x) (bval y)); split; intros; try reflexivity; try discriminate; try lra.
Qed.
Lemma b_lt_false x y : bfin x -> bfin y -> b_lt x y = false -> bval y <= bval x.
Proof. intros Fx Fy H. apply Rnot_lt_le. intros C. apply b_lt_iff in C; congruence. Qed.
Lemma b_le_fin x y : b_le x y = true -> bfin x -> (exists z, bfin z /\ b_le y z = true) -> bfin y.
Proof.
  intros H Fx (z & Fz & K). unfold b_le in *. destruct y as [s|s| |s m e B]; try reflexivity.
  - destruct s.
    + destruct x as [sx|sx| |sx mx ex Bx]; try discriminate; destruct sx; discriminate.
    + destruct z as [sx|sx| |sx mx ex Bx]; try discriminate; destruct sx; discriminate.
  - destruct x as [sx|sx| |sx mx ex Bx]; discriminate.
Qed.
Lemma b_le_val x y : bfin x -> bfin y -> b_le x y = true -> bval x <= bval y.
Proof.
  intros Fx Fy. unfold b_le. rewrite Bcompare_correct by assumption. fold (bval x) (bval y).
  destruct (Rcompare_spec (bval x) (bval y)); intros; try discriminate; lra.
Qed.

(** one entry of the interpolated quaternion before its normalisation *)
Lemma blend_entry s0 s1 p q sn : bfin s0 -> bfin s1 -> bfin p -> bfin q ->
  Rabs (bval s0) <= 1.01 -> Rabs (bval s1) <= 1.01 -> Rabs (bval p) <= 1.01 -> Rabs (bval q) <= 1.01 ->
  2.6 / 10000000 <= bval sn <= 1.01 ->
  let x := b_div (b_add (b_mul s0 p) (b_mul s1 q)) sn in
  upto 400 x /\ Rabs (bval s0 * bval p + bval s1 * bval q) <= 1.1 * Rabs (bval x) + 6 * uu.
Proof.
  intros Fs0 Fs1 Fp Fq B0 B1 Bp Bq Bn x.
  pose proof uu_pos as P. pose proof uu_val as V. pose proof ee_pos as P'. assert (US : uu <= 1 / 1000000000000000) by lra.
  assert (ES : ee <= uu * (1 / 1000)).
  { pose proof ee_tiny. assert (bpow radix2 (-900) <= 1 / 1000000) by (apply Rle_trans with (bpow radix2 (-20)); [apply bpow_le; lia | cbn; lra]).
    assert (uu * bpow radix2 (-900) <= uu * (1 / 1000000)) by (apply Rmult_le_compat_l; lra). lra. }
  assert (RNG : forall v, Rabs v <= 1000000000 -> Rlt_bool (Rabs (rnd v)) (bpow radix2 1024) = true).
  { intros v Hv. apply in_range. apply Rle_trans with (bpow radix2 30); [cbn; lra | apply bpow_le; lia]. }
  assert (M : forall s w, Rabs s <= 1.01 -> Rabs w <= 1.01 -> Rabs (s * w) <= 1.0201) by (intros s w Hs Hw; rewrite Rabs_mult; replace 1.0201 with (1.01 * 1.01) by lra; apply Rmult_le_compat; auto using Rabs_pos).
  pose proof (M _ _ B0 Bp) as M0. pose proof (M _ _ B1 Bq) as M1.
  destruct (mul_range s0 p Fs0 Fp) as [F0 V0]; [apply RNG; lra|].
  destruct (mul_range s1 q Fs1 Fq) as [F1 V1]; [apply RNG; lra|].
  pose proof (rnd_err (bval s0 * bval p)) as R0. rewrite <- V0 in R0. pose proof (rnd_err (bval s1 * bval q)) as R1. rewrite <- V1 in R1.
  set (v0 := bval s0 * bval p) in *. set (v1 := bval s1 * bval q) in *.
  set (x0 := b_mul s0 p) in *. set (x1 := b_mul s1 q) in *.
  assert (G0 : uu * Rabs v0 <= uu * 1.0201) by (apply Rmult_le_compat_l; lra). assert (G1 : uu * Rabs v1 <= uu * 1.0201) by (apply Rmult_le_compat_l; lra).
  assert (E01 : Rabs (bval x0 + bval x1 - (v0 + v1)) <= 2.05 * uu).
  { replace (bval x0 + bval x1 - (v0 + v1)) with ((bval x0 - v0) + (bval x1 - v1)) by ring. pose proof (Rabs_triang (bval x0 - v0) (bval x1 - v1)). lra. }
  assert (A01 : Rabs (bval x0 + bval x1) <= 2.05).
  { replace (bval x0 + bval x1) with ((bval x0 + bval x1 - (v0 + v1)) + (v0 + v1)) by ring.
    pose proof (Rabs_triang (bval x0 + bval x1 - (v0 + v1)) (v0 + v1)). pose proof (Rabs_triang v0 v1). lra. }
  destruct (add_range x0 x1 F0 F1) as [F2 V2]; [apply RNG; lra|].
  pose proof (rnd_err (bval x0 + bval x1)) as R2. rewrite <- V2 in R2. unfold x. set (y := b_add x0 x1) in *.
  assert (G2 : uu * Rabs (bval x0 + bval x1) <= uu * 2.05) by (apply Rmult_le_compat_l; lra).
  assert (Ey : Rabs (bval y - (v0 + v1)) <= 4.2 * uu).
  { replace (bval y - (v0 + v1)) with ((bval y - (bval x0 + bval x1)) + (bval x0 + bval x1 - (v0 + v1))) by ring.
    pose proof (Rabs_triang (bval y - (bval x0 + bval x1)) (bval x0 + bval x1 - (v0 + v1))). lra. }
  assert (Ay : Rabs (bval y) <= 2.1).
  { replace (bval y) with ((bval y - (bval x0 + bval x1)) + (bval x0 + bval x1)) by ring. pose proof (Rabs_triang (bval y - (bval x0 + bval x1)) (bval x0 + bval x1)). lra. }
  (* the quotient *)
  set (n := bval sn) in *. assert (n0 : 0 < n) by lra.
  assert (I : / n <= 4000000) by (apply Rmult_le_reg_r with n; [lra|]; rewrite Rinv_l by lra; lra).
  assert (I0 : 0 < / n) by (apply Rinv_0_lt_compat; lra).
  assert (Q : Rabs (bval y / n) <= 8400000).
  { unfold Rdiv. rewrite Rabs_mult, (Rabs_right (/ n)) by lra. replace 8400000 with (2.1 * 4000000) by lra. apply Rmult_le_compat; auto using Rabs_pos; lra. }
  destruct (div_range y sn F2) as [F3 V3]; [fold n; lra | apply RNG; fold n; lra|]. fold n in V3.
  pose proof (rnd_err (bval y / n)) as R3. rewrite <- V3 in R3.
  split.
  { split; [exact F3|]. apply Rle_trans with (bpow radix2 30); [|apply bpow_le; lia]. rewrite V3. apply rnd_abs_le; [lia|]. cbn. lra. }
  set (z := bval (b_div y sn)) in *. set (w := bval y / n) in *.
  assert (YW : bval y = n * w) by (unfold w; field; lra).
  assert (Rabs (bval y) <= 1.01 * Rabs w).
  { rewrite YW, Rabs_mult, (Rabs_right n) by lra. apply Rmult_le_compat_r; [apply Rabs_pos | lra]. }
  assert (Rabs w <= 1.001 * Rabs z + ee * 2).
  { replace w with ((- (z - w)) + z) by ring. pose proof (Rabs_triang (- (z - w)) z) as T. rewrite Rabs_Ropp in T.
    replace (- (z - w) + z) with w in * by ring.
    assert (uu * Rabs w <= 1 / 1000000000000000 * Rabs w) by (apply Rmult_le_compat_r; [apply Rabs_pos | lra]). pose proof (Rabs_pos w). pose proof (Rabs_pos z). lra. }
  replace (v0 + v1) with ((- (bval y - (v0 + v1))) + bval y) by ring.
  pose proof (Rabs_triang (- (bval y - (v0 + v1))) (bval y)) as T. rewrite Rabs_Ropp in T. pose proof (Rabs_pos z). lra.
Qed.

(** the two normalised quaternions (in the same half space) and their dot product, as slerp computes them *)
Definition slerp_ends (A : arith) (q0 q1 : list (num A)) : list (num A) * list (num A) :=
  let p := l_div A q0 (l_norm A q0) in
  let r := l_div A q1 (l_norm A q1) in
  ((if nlt A (ndot A p r) (nzero A) then l_neg A p else p), r).
Definition slerp_cos (A : arith) (q0 q1 : list (num A)) : num A :=
  ndot A (fst (slerp_ends A q0 q1)) (snd (slerp_ends A q0 q1)).

Lemma slerp_via_ends A q0 q1 t : g_slerp A q0 q1 t =
  let* _ := assert_ (nle A (nzero A) t && nle A t (none1 A))%bool in
  let p := fst (slerp_ends A q0 q1) in
  let r := snd (slerp_ends A q0 q1) in
  let theta := nacos A (ndot A p r) in
  if nlt A (nabs A theta) (nlit A 1 1000000) then Ok p
  else
    let q := l_div A (l_add A (l_scale A (nsin A (nmul A (nsub A (none1 A) t) theta)) p) (l_scale A (nsin A (nmul A t theta)) r)) (nsin A theta) in
    Ok (l_div A q (l_norm A q)).
Proof. reflexivity. Qed.

Lemma neg_fin x : bfin x -> bfin (Bopp x). Proof. unfold bfin. rewrite is_finite_Bopp. auto. Qed.
Lemma neg_val x : bval (Bopp x) = - bval x. Proof. apply B2R_Bopp. Qed.

Lemma abs_le_1 x S : Rabs (S - 1) <= 14 * uu -> x * x <= S -> Rabs x <= 1.00001.
Proof.
  intros H1 H2. pose proof uu_val as V. pose proof uu_pos as P. apply Rabs_le_inv in H1.
  apply Rnot_lt_le. intros C. pose proof (Rsqr_abs x) as Q. unfold Rsqr in Q.
  assert (1.00001 * 1.00001 < Rabs x * Rabs x) by (apply Rmult_le_0_lt_compat; lra). lra.
Qed.

(** slerp up to the angle *)
Lemma slerp_ends_ok L dot a b c d a' b' c' d' : In dot b_dots ->
  Forall (upto 400) [a; b; c; d] -> Forall (upto 400) [a'; b'; c'; d'] ->
  bpow radix2 (-800) <= sq4 (bval a) (bval b) (bval c) (bval d) -> bpow radix2 (-800) <= sq4 (bval a') (bval b') (bval c') (bval d') ->
  exists e f g h e' f' g' h' : b64,
    slerp_ends (b64_arith L dot) [a; b; c; d] [a'; b'; c'; d'] = ([e; f; g; h], [e'; f'; g'; h']) /\
    Forall bfin [e; f; g; h] /\ Forall bfin [e'; f'; g'; h'] /\
    Rabs (sq4 (bval e) (bval f) (bval g) (bval h) - 1) <= 14 * uu /\ Rabs (sq4 (bval e') (bval f') (bval g') (bval h') - 1) <= 14 * uu /\
    - (9.2 * uu) <= dot4 (bval e) (bval f) (bval g) (bval h) (bval e') (bval f') (bval g') (bval h') <= 1.001 /\
    bfin (dot [e; f; g; h] [e'; f'; g'; h']) /\
    Rabs (bval (dot [e; f; g; h] [e'; f'; g'; h']) - dot4 (bval e) (bval f) (bval g) (bval h) (bval e') (bval f') (bval g') (bval h')) <= 9.1 * uu.
Proof.
  intros HD HF HF' HS HS'.
  destruct (normal4 L dot a b c d HD HF HS) as (e & f & g & h & E & F & U).
  destruct (normal4 L dot a' b' c' d' HD HF' HS') as (e' & f' & g' & h' & E' & F' & U').
  pose proof uu_val as V. pose proof uu_pos as P.
  assert (ES : 20 * ee <= uu * (1 / 1000)).
  { pose proof ee_tiny. assert (bpow radix2 (-900) <= 1 / 1000000) by (apply Rle_trans with (bpow radix2 (-20)); [apply bpow_le; lia | cbn; lra]).
    assert (uu * bpow radix2 (-900) <= uu * (1 / 1000000)) by (apply Rmult_le_compat_l; lra). lra. }
  (* for either sign *)
  assert (K : forall s t u v : b64, Forall bfin [s; t; u; v] -> Rabs (sq4 (bval s) (bval t) (bval u) (bval v) - 1) <= 14 * uu ->
    bfin (dot [s; t; u; v] [e'; f'; g'; h']) /\
    Rabs (bval (dot [s; t; u; v] [e'; f'; g'; h']) - dot4 (bval s) (bval t) (bval u) (bval v) (bval e') (bval f') (bval g') (bval h')) <= 9.1 * uu /\
    Rabs (dot4 (bval s) (bval t) (bval u) (bval v) (bval e') (bval f') (bval g') (bval h')) <= 1.001).
  { intros s t u v Fs Us.
    assert (UP : forall x S, bfin x -> Rabs (S - 1) <= 14 * uu -> bval x * bval x <= S -> upto 400 x).
    { intros x S Fx H1 H2. split; [exact Fx|]. apply Rle_trans with (bpow radix2 1); [|apply bpow_le; lia]. pose proof (abs_le_1 _ _ H1 H2). cbn. lra. }
    destruct (sq4_entries (bval s) (bval t) (bval u) (bval v)) as (S1 & S2 & S3 & S4).
    destruct (sq4_entries (bval e') (bval f') (bval g') (bval h')) as (S5 & S6 & S7 & S8).
    inversion Fs as [|? ? X1 Fs1]; inversion Fs1 as [|? ? X2 Fs2]; inversion Fs2 as [|? ? X3 Fs3]; inversion Fs3 as [|? ? X4 _]; subst.
    inversion F' as [|? ? X5 Fs5]; inversion Fs5 as [|? ? X6 Fs6]; inversion Fs6 as [|? ? X7 Fs7]; inversion Fs7 as [|? ? X8 _]; subst.
    assert (FD : bfin (dot [s; t; u; v] [e'; f'; g'; h'])).
    { apply dot4_fin; [exact HD|]. repeat apply Forall_cons; try apply Forall_nil;
      [apply (UP _ _ X1 Us S1) | apply (UP _ _ X2 Us S2) | apply (UP _ _ X3 Us S3) | apply (UP _ _ X4 Us S4)
      | apply (UP _ _ X5 U' S5) | apply (UP _ _ X6 U' S6) | apply (UP _ _ X7 U' S7) | apply (UP _ _ X8 U' S8)]. }
    split; [exact FD|]. destruct (dot4_ok dot HD _ _ _ _ _ _ _ _ FD) as [_ ED].
    assert (AM : forall x y, Rabs (x * y) <= (x * x + y * y) / 2).
    { intros x y. pose proof (Rle_0_sqr (x - y)) as Q1. pose proof (Rle_0_sqr (x + y)) as Q2. unfold Rsqr in *. apply Rabs_le. lra. }
    assert (AB : abs4 (bval s) (bval t) (bval u) (bval v) (bval e') (bval f') (bval g') (bval h') <= 1.0001).
    { unfold abs4. unfold sq4 in Us, U'. apply Rabs_le_inv in Us, U'.
      pose proof (AM (bval s) (bval e')). pose proof (AM (bval t) (bval f')). pose proof (AM (bval u) (bval g')). pose proof (AM (bval v) (bval h')). lra. }
    split.
    - eapply Rle_trans; [exact ED|]. pose proof (Rmult_le_compat_l (9 * uu) _ _ ltac:(lra) AB). lra.
    - eapply Rle_trans; [|eapply Rle_trans; [exact AB | lra]]. unfold dot4, abs4.
      eapply Rle_trans; [apply Rabs_triang|]. apply Rplus_le_compat_r.
      eapply Rle_trans; [apply Rabs_triang|]. apply Rplus_le_compat_r. apply Rabs_triang. }
  destruct (K e f g h F U) as (FD & ED & BD).
  unfold slerp_ends. rewrite E, E'. cbn [nlt ndot b64_arith]. change (nzero (b64_arith L dot)) with b_zero.
  destruct (b_lt (dot [e; f; g; h] [e'; f'; g'; h']) b_zero) eqn:C.
  - apply b_lt_iff in C; [|exact FD | reflexivity]. change (bval b_zero) with 0 in C.
    set (ne := Bopp e). set (nf := Bopp f). set (ng := Bopp g). set (nh := Bopp h).
    assert (FN : Forall bfin [ne; nf; ng; nh]).
    { inversion F as [|? ? X1 Fs1]; inversion Fs1 as [|? ? X2 Fs2]; inversion Fs2 as [|? ? X3 Fs3]; inversion Fs3 as [|? ? X4 _]; subst.
      repeat apply Forall_cons; try apply Forall_nil; apply neg_fin; assumption. }
    assert (UN : Rabs (sq4 (bval ne) (bval nf) (bval ng) (bval nh) - 1) <= 14 * uu).
    { unfold ne, nf, ng, nh, sq4. rewrite !neg_val. unfold sq4 in U. match goal with |- Rabs ?x <= _ => match type of U with Rabs ?y <= _ => replace x with y by ring end end. exact U. }
    destruct (K _ _ _ _ FN UN) as (FD' & ED' & BD').
    exists ne, nf, ng, nh, e', f', g', h'. split; [reflexivity|]. split; [exact FN|]. split; [exact F'|]. split; [exact UN|]. split; [exact U'|].
    split; [|split; [exact FD' | exact ED']].
    split; [|apply Rabs_le_inv in BD'; lra].
    replace (dot4 (bval ne) (bval nf) (bval ng) (bval nh) (bval e') (bval f') (bval g') (bval h'))
      with (- dot4 (bval e) (bval f) (bval g) (bval h) (bval e') (bval f') (bval g') (bval h')) by (unfold ne, nf, ng, nh, dot4; rewrite !neg_val; ring).
    apply Rabs_le_inv in ED. lra.
  - apply b_lt_false in C; [|exact FD | reflexivity]. change (bval b_zero) with 0 in C.
    exists e, f, g, h, e', f', g', h'. split; [reflexivity|]. split; [exact F|]. split; [exact F'|]. split; [exact U|]. split; [exact U'|].
    split; [|split; [exact FD | exact ED]]. split; [apply Rabs_le_inv in ED; lra | apply Rabs_le_inv in BD; lra].
Qed.

(** the weights of the two quaternions *)
Lemma weights L t th : slerp_libm L -> bfin t -> 0 <= bval t <= 1 -> bfin th -> 9 / 10000000 <= bval th <= 2.11 ->
  let s0 := m_sin L (b_mul (b_sub (b_lit 1 1) t) th) in let s1 := m_sin L (b_mul t th) in let sn := m_sin L th in
  bfin s0 /\ bfin s1 /\ bfin sn /\ - (2 * uu) <= bval s0 <= 1.001 /\ - (2 * uu) <= bval s1 <= 1.001 /\
  2.6 / 10000000 <= bval sn <= 1.001 /\ 1.6 / 100000000000000 <= bval s0 * bval s0 + bval s1 * bval s1.
Proof.
  intros (LS & _) Ft T Fh H s0 s1 sn.
  pose proof uu_val as V. pose proof uu_pos as P. pose proof ee_pos as P'. pose proof ee_le_uu as P2.
  assert (RNG : forall v, Rabs v <= 1000000000 -> Rlt_bool (Rabs (rnd v)) (bpow radix2 1024) = true).
  { intros v Hv. apply in_range. apply Rle_trans with (bpow radix2 30); [cbn; lra | apply bpow_le; lia]. }
  assert (V1 : bval (b_lit 1 1) = 1) by (vm_compute; lra). assert (F1 : bfin (b_lit 1 1)) by (vm_compute; reflexivity).
  set (tau := bval t) in *. set (th' := bval th) in *.
  destruct (sub_range (b_lit 1 1) t F1 Ft) as [Fu Vu]; [apply RNG; rewrite V1; fold tau; rewrite Rabs_right; lra|].
  rewrite V1 in Vu. fold tau in Vu. pose proof (rnd_err (1 - tau)) as Ru. rewrite <- Vu in Ru. rewrite (Rabs_right (1 - tau)) in Ru by lra.
  set (ta := b_sub (b_lit 1 1) t) in *.
  assert (TA : 0 <= bval ta <= 1).
  { rewrite Vu. split.
    - rewrite <- (rnd_exact 0) by apply generic_format_0. apply rnd_le. lra.
    - replace 1 with (bpow radix2 0) at 2 by reflexivity. rewrite <- (rnd_exact (bpow radix2 0)) by (apply fmt_pow; lia). apply rnd_le. cbn. lra. }
  assert (Ea : Rabs (bval ta - (1 - tau)) <= 2 * uu) by (assert (uu * (1 - tau) <= uu * 1) by (apply Rmult_le_compat_l; lra); lra).
  assert (MUL : forall x, bfin x -> 0 <= bval x <= 1 -> bfin (b_mul x th) /\ 0 <= bval (b_mul x th) <= 2.12 /\ Rabs (bval (b_mul x th) - bval x * th') <= 4 * uu).
  { intros x Fx Bx. assert (B : 0 <= bval x * th' <= 2.11) by (split; nra).
    destruct (mul_range x th Fx Fh) as [Fm Vm]; [apply RNG; fold th'; rewrite Rabs_right; lra|]. fold th' in Vm.
    pose proof (rnd_err (bval x * th')) as Rm. rewrite <- Vm in Rm. rewrite (Rabs_right (bval x * th')) in Rm by lra.
    assert (uu * (bval x * th') <= uu * 2.11) by (apply Rmult_le_compat_l; lra).
    split; [exact Fm|]. split; [|lra]. split; [|apply Rabs_le_inv in Rm; lra].
    rewrite Vm. rewrite <- (rnd_exact 0) by apply generic_format_0. apply rnd_le. lra. }
  destruct (MUL ta Fu TA) as (Fa0 & Ba0 & Ea0). destruct (MUL t Ft T) as (Fa1 & Ba1 & Ea1). fold tau in Ea1.
  set (a0 := b_mul ta th) in *. set (a1 := b_mul t th) in *.
  destruct (LS _ Fa0) as [Fs0 Es0]. destruct (LS _ Fa1) as [Fs1 Es1]. destruct (LS _ Fh) as [Fsn Esn].
  fold s0 in Fs0, Es0. fold s1 in Fs1, Es1. fold sn th' in Fsn, Esn.
  pose proof (SIN_bound (bval a0)) as N0. pose proof (SIN_bound (bval a1)) as N1. pose proof (SIN_bound th') as N2.
  pose proof (sin_lb2 (bval a0) ltac:(lra)) as L0. pose proof (sin_lb2 (bval a1) ltac:(lra)) as L1. pose proof (sin_lb2 th' ltac:(lra)) as L2.
  apply Rabs_le_inv in Es0, Es1, Esn.
  split; [exact Fs0|]. split; [exact Fs1|]. split; [exact Fsn|].
  split; [lra|]. split; [lra|]. split; [lra|].
  assert (SUM : 8.9 / 10000000 <= bval a0 + bval a1).
  { apply Rabs_le_inv in Ea0, Ea1, Ea.
    assert ((1 - tau - 2 * uu) * th' <= bval ta * th') by (apply Rmult_le_compat_r; lra).
    assert (2 * uu * th' <= 2 * uu * 2.11) by (apply Rmult_le_compat_l; lra). lra. }
  assert (C : 4.4 / 10000000 <= bval a0 \/ 4.4 / 10000000 <= bval a1) by lra.
  pose proof (Rle_0_sqr (bval s0)) as Q0. pose proof (Rle_0_sqr (bval s1)) as Q1. unfold Rsqr in Q0, Q1.
  destruct C as [C | C].
  - assert (1.3 / 10000000 <= bval s0) by lra.
    assert (1.3 / 10000000 * (1.3 / 10000000) <= bval s0 * bval s0) by (apply Rmult_le_compat; lra). lra.
  - assert (1.3 / 10000000 <= bval s1) by lra.
    assert (1.3 / 10000000 * (1.3 / 10000000) <= bval s1 * bval s1) by (apply Rmult_le_compat; lra). lra.
Qed.

(** In binary64, unless rounding makes the computed cosine exceed 1, slerp of two quaternions of ordinary size is a finite
    quaternion whose squared length differs from 1 by at most 14 * 2^-53. *)
Theorem C80_unit : forall L dot (a b c d a' b' c' d' t : b64), In dot b_dots -> slerp_libm L ->
  Forall (upto 400) [a; b; c; d] -> Forall (upto 400) [a'; b'; c'; d'] ->
  bpow radix2 (-800) <= sq4 (bval a) (bval b) (bval c) (bval d) -> bpow radix2 (-800) <= sq4 (bval a') (bval b') (bval c') (bval d') ->
  b_le b_zero t = true -> b_le t (b_ofZ 1) = true ->
  bval (slerp_cos (b64_arith L dot) [a; b; c; d] [a'; b'; c'; d']) <= 1 ->
  exists e f g h : b64, g_slerp (b64_arith L dot) [a; b; c; d] [a'; b'; c'; d'] t = Ok [e; f; g; h] /\
    Forall bfin [e; f; g; h] /\ Rabs (sq4 (bval e) (bval f) (bval g) (bval h) - 1) <= 14 * uu.
Proof.
  intros L dot a b c d a' b' c' d' t HD HL HF HF' HS HS' T0 T1 HC.
  destruct (slerp_ends_ok L dot a b c d a' b' c' d' HD HF HF' HS HS') as (e & f & g & h & e' & f' & g' & h' & E & F & F' & U & U' & D & FC & EC).
  unfold slerp_cos in HC. rewrite E in HC. cbn [fst snd ndot b64_arith] in HC.
  pose proof uu_val as V. pose proof uu_pos as P.
  assert (Ft : bfin t) by (apply (b_le_fin b_zero t T0); [reflexivity | exists (b_ofZ 1); split; [vm_compute; reflexivity | exact T1]]).
  assert (Bt : 0 <= bval t <= 1).
  { apply b_le_val in T0; [|reflexivity | exact Ft]. apply b_le_val in T1; [|exact Ft | vm_compute; reflexivity].
    change (bval b_zero) with 0 in T0. replace (bval (b_ofZ 1)) with 1 in T1 by (vm_compute; lra). lra. }
  set (A := b64_arith L dot) in *. set (cs := dot [e; f; g; h] [e'; f'; g'; h']) in *.
  assert (G : g_slerp A [a; b; c; d] [a'; b'; c'; d'] t =
    let th := m_acos L cs in
    if b_lt (Babs th) (b_lit 1 1000000) then Ok [e; f; g; h]
    else
      let q := l_div A (l_add A (l_scale A (m_sin L (b_mul (b_sub (b_lit 1 1) t) th)) [e; f; g; h]) (l_scale A (m_sin L (b_mul t th)) [e'; f'; g'; h'])) (m_sin L th) in
      Ok (l_div A q (l_norm A q))).
  { rewrite slerp_via_ends, E. cbn [fst snd].
    change (nle A (nzero A) t) with (b_le b_zero t). change (nle A t (none1 A)) with (b_le t (b_lit 1 1)).
    assert (E1 : b_lit 1 1 = b_ofZ 1) by (apply B2SF_inj; vm_compute; reflexivity).
    rewrite T0. rewrite E1 at 1. rewrite T1. reflexivity. }
  rewrite G. clear G. cbv zeta.
  assert (CB : Rabs (bval cs) <= 1) by (apply Rabs_le_inv in EC; apply Rabs_le; lra).
  destruct HL as [LS LA]. destruct (LA cs FC CB) as [Fth Eth]. set (th := m_acos L cs) in *.
  destruct (acos_ub (bval cs)) as [AC0 AC1]; [apply Rabs_le_inv in EC; lra|].
  apply Rabs_le_inv in Eth.
  destruct (b_lt (Babs th) (b_lit 1 1000000)) eqn:SM.
  { exists e, f, g, h. split; [reflexivity|]. split; assumption. }
  apply b_lt_false in SM; [|unfold bfin; rewrite is_finite_Babs; exact Fth | vm_compute; reflexivity].
  assert (BT : 9 / 10000000 <= bval th <= 2.11).
  { unfold bval in SM at 2. rewrite B2R_Babs in SM. fold (bval th) in SM.
    assert (9.9 / 10000000 <= bval (b_lit 1 1000000)) by (vm_compute; lra).
    destruct (Rle_or_lt 0 (bval th)) as [Z|Z]; [rewrite Rabs_right in SM by lra | rewrite Rabs_left in SM by lra]; lra. }
  destruct (weights L t th (conj LS LA) Ft Bt Fth BT) as (Fs0 & Fs1 & Fsn & B0 & B1 & Bn & SS).
  set (s0 := m_sin L (b_mul (b_sub (b_lit 1 1) t) th)) in *. set (s1 := m_sin L (b_mul t th)) in *. set (sn := m_sin L th) in *.
  inversion F as [|? ? X1 Fs1']; inversion Fs1' as [|? ? X2 Fs2]; inversion Fs2 as [|? ? X3 Fs3]; inversion Fs3 as [|? ? X4 _]; subst.
  inversion F' as [|? ? X5 Fs5]; inversion Fs5 as [|? ? X6 Fs6]; inversion Fs6 as [|? ? X7 Fs7]; inversion Fs7 as [|? ? X8 _]; subst.
  destruct (sq4_entries (bval e) (bval f) (bval g) (bval h)) as (S1 & S2 & S3 & S4).
  destruct (sq4_entries (bval e') (bval f') (bval g') (bval h')) as (S5 & S6 & S7 & S8).
  assert (LE : forall x S, Rabs (S - 1) <= 14 * uu -> x * x <= S -> Rabs x <= 1.01) by (intros x S H1 H2; pose proof (abs_le_1 _ _ H1 H2); lra).
  assert (A0 : Rabs (bval s0) <= 1.01) by (apply Rabs_le; lra). assert (A1 : Rabs (bval s1) <= 1.01) by (apply Rabs_le; lra).
  assert (Bn' : 2.6 / 10000000 <= bval sn <= 1.01) by lra.
  destruct (blend_entry s0 s1 e e' sn Fs0 Fs1 X1 X5 A0 A1 (LE _ _ U S1) (LE _ _ U' S5) Bn') as [W1 Y1].
  destruct (blend_entry s0 s1 f f' sn Fs0 Fs1 X2 X6 A0 A1 (LE _ _ U S2) (LE _ _ U' S6) Bn') as [W2 Y2].
  destruct (blend_entry s0 s1 g g' sn Fs0 Fs1 X3 X7 A0 A1 (LE _ _ U S3) (LE _ _ U' S7) Bn') as [W3 Y3].
  destruct (blend_entry s0 s1 h h' sn Fs0 Fs1 X4 X8 A0 A1 (LE _ _ U S4) (LE _ _ U' S8) Bn') as [W4 Y4].
  cbn [l_scale l_add zip l_div map combine fst snd A nadd nmul ndiv b64_arith].
  set (x1 := b_div (b_add (b_mul s0 e) (b_mul s1 e')) sn) in *. set (x2 := b_div (b_add (b_mul s0 f) (b_mul s1 f')) sn) in *.
  set (x3 := b_div (b_add (b_mul s0 g) (b_mul s1 g')) sn) in *. set (x4 := b_div (b_add (b_mul s0 h) (b_mul s1 h')) sn) in *.
  destruct (normal4 L dot x1 x2 x3 x4 HD) as (r1 & r2 & r3 & r4 & ER & FR & UR).
  - repeat apply Forall_cons; try apply Forall_nil; assumption.
  - (* not tiny *)
    clear - Y1 Y2 Y3 Y4 U U' D B0 B1 SS V P.
    set (y1 := bval s0 * bval e + bval s1 * bval e') in *. set (y2 := bval s0 * bval f + bval s1 * bval f') in *.
    set (y3 := bval s0 * bval g + bval s1 * bval g') in *. set (y4 := bval s0 * bval h + bval s1 * bval h') in *.
    set (p := bval s0) in *. set (q := bval s1) in *.
    assert (EXP : sq4 y1 y2 y3 y4 = p * p * sq4 (bval e) (bval f) (bval g) (bval h) + q * q * sq4 (bval e') (bval f') (bval g') (bval h')
      + 2 * (p * q) * dot4 (bval e) (bval f) (bval g) (bval h) (bval e') (bval f') (bval g') (bval h')) by (unfold sq4, dot4, y1, y2, y3, y4; ring).
    set (N1 := sq4 (bval e) (bval f) (bval g) (bval h)) in *. set (N2 := sq4 (bval e') (bval f') (bval g') (bval h')) in *.
    set (DD := dot4 _ _ _ _ _ _ _ _) in *. clearbody DD N1 N2. apply Rabs_le_inv in U, U'.
    assert (PQ : - (2.1 * uu) <= p * q) by nra.
    assert (PP : 0 <= p * p) by apply Rle_0_sqr. assert (QQ : 0 <= q * q) by apply Rle_0_sqr.
    assert (PQ2 : 2 * (p * q) <= p * p + q * q) by (pose proof (Rle_0_sqr (p - q)) as Z; unfold Rsqr in Z; lra).
    assert (BIG : 1.4 / 100000000000000 <= sq4 y1 y2 y3 y4).
    { rewrite EXP. assert (0.999 * (p * p) <= p * p * N1) by nra. assert (0.999 * (q * q) <= q * q * N2) by nra.
      assert (- (0.001 * (p * p + q * q)) - 4.5 * uu <= 2 * (p * q) * DD).
      { destruct (Rle_or_lt 0 (p * q)) as [Z|Z].
        - assert (2 * (p * q) * (- (9.2 * uu)) <= 2 * (p * q) * DD) by (apply Rmult_le_compat_l; lra).
          assert (2 * (p * q) * (9.2 * uu) <= (p * p + q * q) * 0.001) by (apply Rmult_le_compat; lra). lra.
        - destruct (Rle_or_lt 0 DD) as [Z2|Z2].
          + assert (- (4.2 * uu) * 1.001 <= 2 * (p * q) * DD).
            { assert (2 * (p * q) * 1.001 <= 2 * (p * q) * DD) by nra. lra. }
            lra.
          + assert (0 <= 2 * (p * q) * DD) by nra. lra. }
      lra. }
    clear EXP PQ PQ2 PP QQ. unfold sq4 in BIG.
    assert (C : 3.5 / 1000000000000000 <= y1 * y1 \/ 3.5 / 1000000000000000 <= y2 * y2 \/ 3.5 / 1000000000000000 <= y3 * y3 \/ 3.5 / 1000000000000000 <= y4 * y4).
    { destruct (Rle_or_lt (3.5 / 1000000000000000) (y1 * y1)); [tauto|]. destruct (Rle_or_lt (3.5 / 1000000000000000) (y2 * y2)); [tauto|].
      destruct (Rle_or_lt (3.5 / 1000000000000000) (y3 * y3)); [tauto|]. right; right; right. lra. }
    assert (B : bpow radix2 (-800) <= 1 / 1000000000000000000).
    { apply Rle_trans with (bpow radix2 (-60)); [apply bpow_le; lia | cbn; lra]. }
    assert (K : forall y x, 3.5 / 1000000000000000 <= y * y -> Rabs y <= 1.1 * Rabs x + 6 * uu -> 1 / 1000000000000000000 <= x * x).
    { intros y x H1 H2. pose proof (Rsqr_abs y) as Q1. pose proof (Rsqr_abs x) as Q2. unfold Rsqr in *.
      assert (5 / 100000000 <= Rabs y).
      { apply Rnot_lt_le. intros C'. pose proof (Rabs_pos y). assert (Rabs y * Rabs y < 5 / 100000000 * (5 / 100000000)) by (apply Rmult_le_0_lt_compat; lra). lra. }
      assert (4 / 100000000 <= Rabs x) by lra.
      assert (4 / 100000000 * (4 / 100000000) <= Rabs x * Rabs x) by (apply Rmult_le_compat; lra). lra. }
    destruct (sq4_entries (bval x1) (bval x2) (bval x3) (bval x4)) as (Z1 & Z2 & Z3 & Z4).
    destruct C as [C | [C | [C | C]]]; [pose proof (K _ _ C Y1) | pose proof (K _ _ C Y2) | pose proof (K _ _ C Y3) | pose proof (K _ _ C Y4)]; lra.
  - exists r1, r2, r3, r4. split; [|split; assumption]. f_equal. exact ER.
Qed.

(** Otherwise the result is NaN, for equal and for different quaternions. *)
Theorem C80_nan_only : forall L dot (q0 q1 : list b64) (t : b64),
  (forall x, b_lt (b_ofZ 1) x = true -> m_acos L x = B754_nan) -> m_sin L B754_nan = B754_nan -> length q0 = length q1 ->
  b_le b_zero t = true -> b_le t (b_ofZ 1) = true ->
  b_lt (b_ofZ 1) (slerp_cos (b64_arith L dot) q0 q1) = true ->
  g_slerp (b64_arith L dot) q0 q1 t = Ok (map (fun _ => B754_nan) q0).
Proof.
  intros L dot q0 q1 t HA HS HL T0 T1 H1. rewrite slerp_via_ends. unfold slerp_cos in H1.
  set (A := b64_arith L dot) in *.
  change (nle A (nzero A) t) with (b_le b_zero t). change (nle A t (none1 A)) with (b_le t (b_lit 1 1)).
  assert (E1 : b_lit 1 1 = b_ofZ 1) by (apply B2SF_inj; vm_compute; reflexivity).
  rewrite T0. rewrite E1 at 1. rewrite T1. cbn [andb assert_ bind]. cbv zeta.
  set (p := fst (slerp_ends A q0 q1)) in *. set (r := snd (slerp_ends A q0 q1)) in *.
  change (nacos A (ndot A p r)) with (m_acos L (ndot A p r)). rewrite (HA _ H1).
  change (nlt A (nabs A B754_nan) (nlit A 1 1000000)) with false. cbv iota.
  assert (M : forall y, nmul A y B754_nan = B754_nan) by (intros [| | |]; reflexivity).
  rewrite !M. change (nsin A B754_nan) with (m_sin L B754_nan). rewrite HS. f_equal.
  assert (Lp : length p = length q0).
  { unfold p, slerp_ends. cbn [fst]. destruct (nlt _ _ _); unfold l_neg, l_div; rewrite !map_length; reflexivity. }
  assert (Lr : length r = length q0) by (unfold r, slerp_ends; cbn [snd]; unfold l_div; rewrite map_length; symmetry; exact HL).
  assert (LA : l_add A (l_scale A B754_nan p) (l_scale A B754_nan r) = map (fun _ => B754_nan) q0).
  { clearbody p r. clear - Lp Lr. unfold l_add, zip, l_scale. revert p r Lp Lr. induction q0 as [|x q IH]; intros [|y p] [|z r] Lp Lr; try discriminate; [reflexivity|].
    cbn [map combine fst snd]. injection Lp as Lp. injection Lr as Lr. rewrite (IH p r Lp Lr). reflexivity. }
  rewrite LA. unfold l_div. rewrite !map_map. apply map_ext. intros x. reflexivity.
Qed.

(* ---- a math library that meets the contract ---- *)
Lemma b_near_ok4 x : Rabs x <= 4 -> bfin (b_near x) /\ bval (b_near x) = rnd x.
Proof.
  intros H. unfold b_near.
  pose proof (binary_normalize_correct 53 1024 prec64 emax64 mode_NE
    (ZnearestE (scaled_mantissa radix2 (FLT_exp (-1074) 53) x)) (cexp radix2 (FLT_exp (-1074) 53) x) false) as C.
  change (F2R _) with (rnd x) in C.
  assert (V : Valid_exp (FLT_exp (-1074) 53)) by (apply FLT_exp_valid; reflexivity).
  assert (E : round radix2 (SpecFloat.fexp 53 1024) (round_mode mode_NE) (rnd x) = rnd x).
  { apply round_generic; [apply valid_rnd_round_mode|]. apply generic_format_round; [exact V | apply valid_rnd_N]. }
  cbv zeta in C. rewrite E in C. rewrite Rlt_bool_true in C; [split; apply C|].
  apply Rle_lt_trans with (bpow radix2 2); [apply rnd_abs_le; [lia | exact H] | apply bpow_lt; lia].
Qed.
Definition near_libm : libm :=
  Libm (fun x => if is_finite x then b_near (sin (bval x)) else B754_nan)
       (fun x => if is_finite x then b_near (cos (bval x)) else B754_nan)
       (fun x => if (is_finite x && Rleb (Rabs (bval x)) 1)%bool then b_near (acos (bval x)) else B754_nan)
       (fun x y => B754_nan).
Lemma near_libm_ok : slerp_libm near_libm.
Proof.
  pose proof uu_pos. pose proof ee_le_uu.
  split.
  - intros x F. cbn [m_sin near_libm]. unfold bfin in F. rewrite F.
    assert (B : Rabs (sin (bval x)) <= 1) by (apply Rabs_le; pose proof (SIN_bound (bval x)); lra).
    destruct (b_near_ok _ B) as [F1 V1]. split; [exact F1|]. rewrite V1. pose proof (rnd_err (sin (bval x))).
    assert (uu * Rabs (sin (bval x)) <= uu * 1) by (apply Rmult_le_compat_l; lra). lra.
  - intros x F B1. cbn [m_acos near_libm]. unfold bfin in F. rewrite F.
    assert (E : Rleb (Rabs (bval x)) 1 = true) by (unfold Rleb; destruct (Rle_dec _ _); [reflexivity | contradiction]). rewrite E. cbn [andb].
    pose proof (acos_bound (bval x)) as AB. pose proof pi_hi as PH.
    assert (B : Rabs (acos (bval x)) <= 3.2) by (rewrite Rabs_right; lra).
    destruct (b_near_ok4 (acos (bval x))) as [F1 V1]; [lra|]. split; [exact F1|]. rewrite V1. pose proof (rnd_err (acos (bval x))) as R.
    assert (PB : Rabs (acos (bval x)) <= 3.15) by (rewrite Rabs_right; lra).
    assert (uu * Rabs (acos (bval x)) <= uu * 3.15) by (apply Rmult_le_compat_l; lra).
    assert (ee <= uu * (1 / 1000)).
    { pose proof ee_tiny. assert (bpow radix2 (-900) <= 1 / 1000000) by (apply Rle_trans with (bpow radix2 (-20)); [apply bpow_le; lia | cbn; lra]).
      assert (uu * bpow radix2 (-900) <= uu * (1 / 1000000)) by (apply Rmult_le_compat_l; lra). lra. }
    lra.
Qed.

(** (3, 1, -2, 1) and (1, 2, 2, -7), half way *)
Example C80_unit_ex : forall dot, In dot b_dots ->
  let a := b_vec [3;1;-2;1]%Z in let b := b_vec [1;2;2;-7]%Z in let t := b_lit 1 2 in
  slerp_libm near_libm /\ Forall (upto 400) a /\ Forall (upto 400) b /\
  match map bval a, map bval b with
  | [w; x; y; z], [w'; x'; y'; z'] => bpow radix2 (-800) <= sq4 w x y z /\ bpow radix2 (-800) <= sq4 w' x' y' z'
  | _, _ => False
  end /\
  b_le b_zero t = true /\ b_le t (b_ofZ 1) = true /\ bval (slerp_cos (b64_arith near_libm dot) a b) <= 1.
Proof.
  intros dot HD a b t. split; [apply near_libm_ok|].
  assert (I : forall z, (Z.abs z <= 1024)%Z -> bfin (b_ofZ z) -> bval (b_ofZ z) = IZR z -> upto 400 (b_ofZ z)).
  { intros z Hz F V. split; [exact F|]. rewrite V. apply Rle_trans with (bpow radix2 10); [|apply bpow_le; lia].
    change (bpow radix2 10) with (IZR 1024). rewrite <- abs_IZR. apply IZR_le. exact Hz. }
  split; [repeat apply Forall_cons; try apply Forall_nil; (apply I; [lia | reflexivity | vm_compute; lra])|].
  split; [repeat apply Forall_cons; try apply Forall_nil; (apply I; [lia | reflexivity | vm_compute; lra])|].
  split.
  { cbn [a b b_vec map]. replace (bval (b_ofZ 1)) with 1 by (vm_compute; lra). replace (bval (b_ofZ 3)) with 3 by (vm_compute; lra).
    replace (bval (b_ofZ 2)) with 2 by (vm_compute; lra). replace (bval (b_ofZ (-2))) with (-2) by (vm_compute; lra). replace (bval (b_ofZ (-7))) with (-7) by (vm_compute; lra).
    assert (bpow radix2 (-800) <= bpow radix2 0) by (apply bpow_le; lia). change (bpow radix2 0) with 1 in H. unfold sq4. split; lra. }
  split; [vm_compute; reflexivity|]. split; [vm_compute; reflexivity|].
  assert (K : bfin (slerp_cos (b64_arith near_libm dot) a b) /\ b_le (slerp_cos (b64_arith near_libm dot) a b) (b_ofZ 1) = true).
  { change (slerp_cos (b64_arith near_libm dot) a b) with (slerp_cos (b64_arith table_libm dot) a b).
    revert HD. intros H; repeat (destruct H as [<- | H]; [split; vm_compute; reflexivity|]); destruct H. }
  destruct K as [K1 K2]. apply b_le_val in K2; [|exact K1 | vm_compute; reflexivity].
  replace (bval (b_ofZ 1)) with 1 in K2 by (vm_compute; lra). exact K2.
Qed.
(** (1, 0, 1, 1) and twice itself *)
Example C80_nan_only_ex : forall L dot, In dot b_dots ->
  b_lt (b_ofZ 1) (slerp_cos (b64_arith L dot) (b_vec [1;0;1;1]%Z) (b_vec [-2;0;-2;-2]%Z)) = true.
Proof. intros L dot. each_order. Qed.
Print Assumptions C80_unit.
Print Assumptions C80_nan_only.
