(** The computed length of a list of numbers of moderate size, in any of the summation orders. *)
From Coq Require Import Reals ZArith List Bool Lra Lia Psatz.
From Flocq Require Import Core.Core IEEE754.BinarySingleNaN.
From Verif Require Import RealAux ModelFloat FactsB64 FactsExact FactsTrack.
Import ListNotations.
Open Scope R_scope.

Definition sumsq (l : list b64) : R := fold_right (fun x s => bval x * bval x + s) 0 l.
Lemma sumsq_cons x l : sumsq (x :: l) = bval x * bval x + sumsq l. Proof. reflexivity. Qed.
Lemma sumsq_nonneg l : 0 <= sumsq l. Proof. induction l as [|x l IH]; [right; reflexivity|]. rewrite sumsq_cons. pose proof (Rle_0_sqr (bval x)). unfold Rsqr in *. lra. Qed.
Lemma sumsq_app l l' : sumsq (l ++ l') = sumsq l + sumsq l'.
Proof. induction l as [|x l IH]; [cbn [app]; unfold sumsq at 2; cbn [fold_right]; lra|]. cbn [app]. rewrite !sumsq_cons, IH. lra. Qed.
Lemma sumsq_rev l : sumsq (rev l) = sumsq l.
Proof. induction l as [|x l IH]; [reflexivity|]. cbn [rev]. rewrite sumsq_app, IH, !sumsq_cons. unfold sumsq at 2. cbn [fold_right]. lra. Qed.
Definition small (x : b64) : Prop := bfin x /\ Rabs (bval x) <= 4.

Definition step_ok (f : b64 -> b64 * b64 -> b64) : Prop := forall s x, bfin s -> 0 <= bval s <= 1000 -> small x ->
  bfin (f s (x, x)) /\ 0 <= bval (f s (x, x)) /\ Rabs (bval (f s (x, x)) - (bval s + bval x * bval x)) <= 21 / 10 * uu * (bval s + bval x * bval x) + 3 * ee.
Lemma sq_small x : small x -> 0 <= bval x * bval x <= 16.
Proof. intros [_ H]. apply Rabs_le_inv in H. nra. Qed.
Lemma rg_16 v : -2000 <= v <= 2000 -> Rlt_bool (Rabs (rnd v)) (bpow radix2 1024) = true.
Proof. intros H. apply in_range. apply Rle_trans with (bpow radix2 11); [apply Rabs_le; cbn; lra | apply bpow_le; lia]. Qed.
Lemma step_seq : step_ok (fun s p => b_add s (b_mul (fst p) (snd p))).
Proof.
  intros s x Fs Bs Sx. pose proof (sq_small x Sx) as Q. destruct Sx as [Fx Bx]. cbn [fst snd].
  pose proof uu_pos as U. pose proof uu_small as US. pose proof ee_le_uu as EU. pose proof ee_pos as EP.
  destruct (mul_range x x Fx Fx) as [Fm Vm]; [apply rg_16; lra|].
  pose proof (rnd_err (bval x * bval x)) as E1. rewrite <- Vm in E1. rewrite (Rabs_right (bval x * bval x)) in E1 by lra.
  assert (M0 : 0 <= bval (b_mul x x)) by (rewrite Vm; apply rnd_nonneg; lra).
  assert (U16 : uu * (bval x * bval x) <= 1 / 100 * (bval x * bval x)) by (apply Rmult_le_compat_r; lra).
  apply Rabs_le_inv in E1.
  destruct (add_range s (b_mul x x) Fs Fm) as [Fa Va]; [apply rg_16; lra|].
  split; [exact Fa|]. split; [rewrite Va; apply rnd_nonneg; lra|].
  pose proof (rnd_err (bval s + bval (b_mul x x))) as E2. rewrite <- Va in E2. rewrite (Rabs_right (bval s + bval (b_mul x x))) in E2 by lra.
  assert (U3 : uu * (bval s + bval (b_mul x x)) <= uu * (bval s + 101 / 100 * (bval x * bval x) + ee)) by (apply Rmult_le_compat_l; lra).
  assert (uu * ee <= 1 / 100 * ee) by (apply Rmult_le_compat_r; lra). assert (0 <= uu * bval s) by (apply Rmult_le_pos; lra).
  apply Rabs_le_inv in E2. apply Rabs_le. lra.
Qed.
Lemma step_fma : step_ok (fun s p => b_fma (fst p) (snd p) s).
Proof.
  intros s x Fs Bs Sx. pose proof (sq_small x Sx) as Q. destruct Sx as [Fx Bx]. cbn [fst snd].
  pose proof uu_pos as U. pose proof ee_pos as EP.
  destruct (fma_range x x s Fx Fx Fs) as [Fa Va]; [apply rg_16; lra|].
  split; [exact Fa|]. split; [rewrite Va; apply rnd_nonneg; lra|].
  pose proof (rnd_err (bval x * bval x + bval s)) as E2. rewrite <- Va in E2. rewrite (Rabs_right (bval x * bval x + bval s)) in E2 by lra.
  assert (0 <= uu * bval s) by (apply Rmult_le_pos; lra). assert (0 <= uu * (bval x * bval x)) by (apply Rmult_le_pos; lra).
  apply Rabs_le_inv in E2. apply Rabs_le. lra.
Qed.
Lemma fold_ok f : step_ok f -> forall l s v n, Forall small l -> bfin s -> 0 <= bval s -> 0 <= v <= 16 * INR n -> (n + length l <= 20)%nat ->
  Rabs (bval s - v) <= INR n * (3 * uu * v + 4 * ee) ->
  let r := fold_left f (map (fun x => (x, x)) l) s in
  bfin r /\ 0 <= bval r /\ Rabs (bval r - (v + sumsq l)) <= INR (n + length l) * (3 * uu * (v + sumsq l) + 4 * ee).
Proof.
  intros HF. pose proof uu_pos as U. pose proof uu_small as US. pose proof ee_le_uu as EU. pose proof ee_pos as EP. pose proof uu_val' as UV.
  induction l as [|x l IH]; intros s v n HL Fs S0 HV HN E; cbn [map fold_left sumsq fold_right length].
  - rewrite Nat.add_0_r, Rplus_0_r. auto.
  - inversion HL as [|? ? Sx HL']; subst. pose proof (sq_small x Sx) as Q. cbn [length] in HN.
    assert (N20 : 0 <= INR n <= 20). { split; [apply pos_INR|]. replace 20 with (INR 20) by (cbn; lra). apply le_INR. lia. }
    assert (N1 : INR (S n) = INR n + 1) by apply S_INR.
    assert (UVV : 0 <= uu * v) by (apply Rmult_le_pos; lra).
    assert (T0 : INR n * (3 * uu * v + 4 * ee) <= 20 * (3 * uu * v + 4 * ee)) by (apply Rmult_le_compat_r; lra).
    assert (UV2 : uu * v <= uu * 320) by (apply Rmult_le_compat_l; lra).
    assert (SB : bval s <= 1000) by (apply Rabs_le_inv in E; lra).
    destruct (HF s x Fs (conj S0 SB) Sx) as (F1 & P1 & E1).
    replace (v + (bval x * bval x + fold_right (fun x s => bval x * bval x + s) 0 l)) with (v + bval x * bval x + sumsq l) by (unfold sumsq; ring).
    replace (n + S (length l))%nat with (S n + length l)%nat by lia.
    apply (IH (f s (x, x)) (v + bval x * bval x) (S n) HL' F1 P1); [rewrite N1; lra | lia|].
    rewrite N1. set (q := bval x * bval x) in *.
    replace (bval (f s (x, x)) - (v + q)) with ((bval (f s (x, x)) - (bval s + q)) + (bval s - v)) by ring.
    eapply Rle_trans; [apply Rabs_triang|].
    assert (SV : bval s <= v + 20 * (3 * uu * v + 4 * ee)) by (apply Rabs_le_inv in E; lra).
    assert (UU : uu * uu <= 1 / 1000000 * uu) by (apply Rmult_le_compat_r; lra).
    assert (USV : uu * bval s <= uu * v + 1 / 1000 * (uu * v) + 1 / 1000 * ee).
    { assert (uu * bval s <= uu * (v + 20 * (3 * uu * v + 4 * ee))) by (apply Rmult_le_compat_l; lra).
      assert (uu * uu * v <= 1 / 1000000 * uu * v) by (apply Rmult_le_compat_r; lra). assert (uu * ee <= 1 / 1000000 * ee) by (apply Rmult_le_compat_r; lra). lra. }
    assert (0 <= uu * q) by (apply Rmult_le_pos; lra).
    assert (NQ : 0 <= INR n * (3 * uu * q)) by (apply Rmult_le_pos; [lra|]; lra).
    replace ((INR n + 1) * (3 * uu * (v + q) + 4 * ee)) with (INR n * (3 * uu * v + 4 * ee) + INR n * (3 * uu * q) + (3 * (uu * v) + 3 * (uu * q) + 4 * ee)) by ring.
    lra.
Qed.
Lemma combine_self (l : list b64) : combine l l = map (fun x => (x, x)) l. Proof. induction l as [|x l IH]; [reflexivity|]. cbn. rewrite IH. reflexivity. Qed.
Lemma Forall_rev' (l : list b64) : Forall small l -> Forall small (rev l). Proof. apply Forall_rev. Qed.

Lemma dot_sq dot l : In dot b_dots -> (5 <= length l <= 20)%nat -> Forall small l ->
  bfin (dot l l) /\ 0 <= bval (dot l l) /\ Rabs (bval (dot l l) - sumsq l) <= 60 * uu * sumsq l + 80 * ee.
Proof.
  intros HD Hn HS.
  assert (Z : bfin b_zero /\ 0 <= bval b_zero /\ Rabs (bval b_zero - 0) <= INR 0 * (3 * uu * 0 + 4 * ee)).
  { split; [reflexivity|]. assert (bval b_zero = 0) as -> by reflexivity. split; [lra|]. rewrite Rminus_0_r, Rabs_R0. change (INR 0) with 0. lra. }
  destruct Z as (Z1 & Z2 & Z3).
  assert (G : forall f l', step_ok f -> (length l' <= 20)%nat -> Forall small l' -> let r := fold_left f (map (fun x => (x, x)) l') b_zero in
    bfin r /\ 0 <= bval r /\ Rabs (bval r - sumsq l') <= 60 * uu * sumsq l' + 80 * ee).
  { intros f l' HF HN HS' r. destruct (fold_ok f HF l' b_zero 0 0 HS' Z1 Z2 ltac:(cbn; lra) HN Z3) as (F & P & E). split; [exact F|]. split; [exact P|].
    rewrite Rplus_0_l in E. fold r in E. eapply Rle_trans; [exact E|]. pose proof (sumsq_nonneg l') as S0. pose proof uu_pos. pose proof ee_pos.
    assert (0 <= uu * sumsq l') by (apply Rmult_le_pos; lra).
    apply Rle_trans with (20 * (3 * uu * sumsq l' + 4 * ee)); [|lra]. apply Rmult_le_compat_r; [lra|]. replace 20 with (INR 20) by (cbn; lra). apply le_INR. cbn [Nat.add]. lia. }
  assert (GR : forall f, step_ok f -> let r := fold_left f (rev (map (fun x => (x, x)) l)) b_zero in bfin r /\ 0 <= bval r /\ Rabs (bval r - sumsq l) <= 60 * uu * sumsq l + 80 * ee).
  { intros f HF. rewrite <- map_rev, <- (sumsq_rev l). apply G; [exact HF | rewrite rev_length; lia | apply Forall_rev, HS]. }
  assert (P : sum_pairs (combine l l) = sum_seq (combine l l) /\ sum_lanes (combine l l) = sum_seq (combine l l)).
  { destruct l as [|a [|b [|c [|d [|e l]]]]]; cbn [length] in Hn; try lia. split; reflexivity. }
  repeat (destruct HD as [<- | HD]); [| | | | | | destruct HD].
  - unfold sum_seq. rewrite combine_self. apply G; [apply step_seq | lia | exact HS].
  - unfold sum_fma. rewrite combine_self. apply G; [apply step_fma | lia | exact HS].
  - unfold sum_seq. rewrite combine_self. apply GR, step_seq.
  - unfold sum_fma. rewrite combine_self. apply GR, step_fma.
  - rewrite (proj1 P). unfold sum_seq. rewrite combine_self. apply G; [apply step_seq | lia | exact HS].
  - rewrite (proj2 P). unfold sum_seq. rewrite combine_self. apply G; [apply step_seq | lia | exact HS].
Qed.
(** the computed length *)
Lemma len_sq dot l : In dot b_dots -> (5 <= length l <= 20)%nat -> Forall small l -> bpow radix2 (-60) <= sumsq l ->
  bfin (b_sqrt (dot l l)) /\ 0 <= bval (b_sqrt (dot l l)) /\ Rabs (bval (b_sqrt (dot l l)) - sqrt (sumsq l)) <= 63 * uu * sqrt (sumsq l).
Proof.
  intros HD Hn HS HB. destruct (dot_sq dot l HD Hn HS) as (F & P & E). set (y := bval (dot l l)) in *. set (S := sumsq l) in *.
  pose proof uu_pos as U. pose proof uu_small as US. pose proof ee_pos as EP. pose proof (bpow_gt_0 radix2 (-60)) as B0. assert (S0 : 0 < S) by lra.
  assert (EE : 80 * ee <= 1 / 100 * (uu * S)).
  { apply Rle_trans with (1 / 100 * (uu * bpow radix2 (-60))); [|apply Rmult_le_compat_l; [lra|]; apply Rmult_le_compat_l; lra].
    unfold ee, uu. rewrite <- bpow_plus. apply Rle_trans with (bpow radix2 13 * bpow radix2 (-1075)); [apply Rmult_le_compat_r; [apply bpow_ge_0 | change (bpow radix2 13) with 8192; lra]|].
    rewrite <- bpow_plus. apply Rle_trans with (bpow radix2 (-7) * bpow radix2 (-53 + -60)); [rewrite <- bpow_plus; apply bpow_le; lia|]. apply Rmult_le_compat_r; [apply bpow_ge_0 | cbn; lra]. }
  assert (SS : 0 < sqrt S) by (apply sqrt_lt_R0; exact S0). assert (S2 : sqrt S * sqrt S = S) by (apply sqrt_sqrt; lra).
  assert (D : Rabs (sqrt y - sqrt S) <= 61 * uu * sqrt S).
  { apply Rmult_le_reg_r with (sqrt S); [exact SS|]. rewrite Rmult_assoc, S2.
    apply Rle_trans with (Rabs (y - S)); [|lra].
    replace (y - S) with ((sqrt y - sqrt S) * (sqrt y + sqrt S)) by (transitivity (sqrt y * sqrt y - sqrt S * sqrt S); [ring|]; rewrite (sqrt_sqrt y) by exact P; rewrite S2; reflexivity).
    rewrite Rabs_mult. apply Rmult_le_compat_l; [apply Rabs_pos|]. pose proof (sqrt_pos y). rewrite Rabs_right; lra. }
  destruct (sqrt_range0 (dot l l) F P) as [FR VR]. split; [exact FR|]. fold y in VR. rewrite VR. split; [apply rnd_nonneg, sqrt_pos|].
  pose proof (rnd_err (sqrt y)) as RE. rewrite (Rabs_right (sqrt y)) in RE by (apply Rle_ge, sqrt_pos).
  assert (SY : sqrt y <= 2 * sqrt S) by (apply Rabs_le_inv in D; assert (61 * uu * sqrt S <= 1 * sqrt S) by (apply Rmult_le_compat_r; lra); lra).
  assert (SY2 : sqrt y <= 101 / 100 * sqrt S) by (apply Rabs_le_inv in D; assert (61 * uu * sqrt S <= 1 / 100 * sqrt S) by (apply Rmult_le_compat_r; lra); lra).
  assert (USY : uu * sqrt y <= uu * (101 / 100 * sqrt S)) by (apply Rmult_le_compat_l; lra).
  assert (E2 : ee <= 1 / 100 * (uu * sqrt S)).
  { assert (Q : bpow radix2 (-30) <= sqrt S).
    { apply Rsqr_incr_0_var; [|apply sqrt_pos]. unfold Rsqr. rewrite S2, <- bpow_plus. exact HB. }
    apply Rle_trans with (1 / 100 * (uu * bpow radix2 (-30))); [|apply Rmult_le_compat_l; [lra|]; apply Rmult_le_compat_l; lra].
    unfold ee, uu. rewrite <- bpow_plus. apply Rle_trans with (bpow radix2 (-7) * bpow radix2 (-53 + -30)); [rewrite <- bpow_plus; apply bpow_le; lia|]. apply Rmult_le_compat_r; [apply bpow_ge_0 | cbn; lra]. }
  replace (rnd (sqrt y) - sqrt S) with ((rnd (sqrt y) - sqrt y) + (sqrt y - sqrt S)) by ring. eapply Rle_trans; [apply Rabs_triang|]. lra.
Qed.
