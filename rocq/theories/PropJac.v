(** Property C86: the Jacobian in floating-point arithmetic. *)
From Coq Require Import Reals ZArith List Bool Lra Lia.
From Flocq Require Import Core.Core IEEE754.BinarySingleNaN.
From Verif Require Import LinAlg RealAux Py FactsReal FactsLinAlg ModelRot SpecRot FactsRot ModelTransform ModelRobot ModelKin SpecKin FactsKin FactsJac
  ModelFloat ModelFloat2 FactsNorm SpecRound FactsRound FactsB64 FactsFloat SpecRound2 FactsRound2 PropFloat.
Import ListNotations.
Open Scope R_scope.

Lemma col_close_near A val k cf c L : col_close A val k cf c L -> col_near val (k - 1) ((k - 1) * L) cf c.
Proof. intros [[H1 _] [H2 _]]. split; [lra | exact H2]. Qed.
Lemma col_near_mono A val a b a' b' cf c : a <= a' -> b <= b' -> col_near (A := A) val a b cf c -> col_near val a' b' cf c.
Proof. intros H1 H2 [H3 H4]. split; lra. Qed.
Lemma Forall2_impl' {S T} (P Q : S -> T -> Prop) l l' : (forall x y, P x y -> Q x y) -> Forall2 P l l' -> Forall2 Q l l'.
Proof. intros H. induction 1; constructor; auto. Qed.

Lemma Forall2_len {S T} (P : S -> T -> Prop) l l' : Forall2 P l l' -> length l = length l'.
Proof. induction 1; cbn [length]; congruence. Qed.

(** Over any arithmetic that meets the contract: robots without mobile joints. *)
Theorem C86_rounding : forall A fin val u g w e d s,
  sound A fin val u g w e -> sound6 A fin val g e -> 0 <= u -> 0 <= g -> 0 <= w -> 0 <= e -> 0 <= d -> 45 * (u + g + w + e + d) <= 1 / 10 ->
  0 < s <= 1 -> e <= u * s ->
  forall rf ptf r theta ignore T' J', represents fin val d rf r -> rep_opt (fun a b => vval val a = b) ptf (rptool r) -> Forall fin theta ->
  ~ In Mobile3 (rtype r) ->
  g_fwdkin A rf theta ignore = Ok T' -> tfin fin T' -> g_jacobian A rf ptf theta ignore = Ok J' -> Forall (cfin fin) J' ->
  exists J, robotjacobian r (map val theta) ignore = Ok J /\
    let n := length (rtype r) in
    let K := (1 + 45 * (u + g + w + e + d)) ^ (2 * n + 3) * (1 + 3 * (u + g + e)) ^ (8 * n + 8) in
    Forall2 (col_near val (K - 1) ((K - 1) * (1 + 2 * span_jac s r (map val theta)))) J' J.
Proof.
  intros A fin val u g w e d s SA S6 Hu Hg Hw He Hd Hm Hs Hes rf ptf r theta ignore T' J' Hr Hp Ht NM E0 F0 E F.
  destruct (jacobian_rounding A fin val u g w e d (3 * (u + g + e)) (45 * (u + g + w + e + d)) s SA S6
    (conj Hu (conj Hg (conj Hw (conj He Hd)))) (ltac:(lra)) Hs Hes
    (rot_err A fin val u g w e d s SA (conj Hu (conj Hg (conj Hw (conj He Hd)))) Hs Hm) (ltac:(lra))
    rf ptf r theta ignore T' J' _ Hr Hp Ht E0 F0 E F (Rle_refl _)) as (J & E1 & C); [intros I; destruct (NM I)|].
  exists J. split; [exact E1|]. cbv zeta.
  set (rho := 45 * (u + g + w + e + d)) in *. set (sg := 3 * (u + g + e)) in *. set (n := length (rtype r)) in *.
  match type of C with Forall2 (fun cf c => col_close _ _ ?k cf c _) _ _ => assert (EK : k = (1 + rho) ^ (2 * n + 3) * (1 + sg) ^ (8 * n + 8)) end.
  { rewrite Rpow_mult_distr, <- pow_mult.
    replace (2 * n + 3)%nat with (n + n + 3)%nat by lia. replace (8 * n + 8)%nat with (4 * n + 4 * n + 8)%nat by lia.
    rewrite !pow_add. ring. }
  rewrite EK in C. eapply Forall2_impl'; [|exact C]. intros cf c. apply col_close_near.
Qed.

(** With mobile joints a column is turned by a matrix that is computed from a computed axis. *)
Theorem C86_mobile : forall A fin val u g w e d s,
  sound A fin val u g w e -> sound6 A fin val g e -> 0 <= u -> 0 <= g -> 0 <= w -> 0 <= e -> 0 <= d -> 45 * (u + g + w + e + d) <= 1 / 10 ->
  0 < s <= 1 -> e <= u * s ->
  forall rf ptf r theta ignore T' J', represents fin val d rf r -> rep_opt (fun a b => vval val a = b) ptf (rptool r) -> Forall fin theta ->
  g_fwdkin A rf theta ignore = Ok T' -> tfin fin T' -> g_jacobian A rf ptf theta ignore = Ok J' -> Forall (cfin fin) J' ->
  let n := length (rtype r) in
  let K := (1 + 45 * (u + g + w + e + d)) ^ (2 * n + 3) * (1 + 3 * (u + g + e)) ^ (8 * n + 8) in
  let K' := (1 + 45 * (u + g + w + e + (K - 1))) * K in
  45 * (u + g + w + e + (K - 1)) <= 1 / 10 ->
  exists J, robotjacobian r (map val theta) ignore = Ok J /\
    Forall2 (col_near val (K' - 1) ((K' - 1) * (1 + 2 * span_jac s r (map val theta)))) J' J.
Proof.
  intros A fin val u g w e d s SA S6 Hu Hg Hw He Hd Hm Hs Hes rf ptf r theta ignore T' J' Hr Hp Ht E0 F0 E F n K K' HK.
  set (rho := 45 * (u + g + w + e + d)) in *. set (sg := 3 * (u + g + e)) in *.
  assert (R0 : 0 <= rho) by (unfold rho; lra). assert (G0 : 0 <= sg) by (unfold sg; lra).
  set (cN := ((1 + rho) * (1 + sg) ^ 4) ^ n). set (c1 := cN * (1 + rho) * (1 + sg)).
  set (c2 := cN * (1 + rho) * (1 + sg) ^ 4 * (1 + sg)).
  assert (EK : c1 * c2 * (1 + sg) * ((1 + rho) * (1 + sg)) = K).
  { unfold K, c1, c2, cN. rewrite Rpow_mult_distr, <- pow_mult.
    replace (2 * n + 3)%nat with (n + n + 3)%nat by lia. replace (8 * n + 8)%nat with (4 * n + 4 * n + 8)%nat by lia.
    rewrite !pow_add. ring. }
  assert (N1 : 1 <= cN) by (apply pow_R1_Rle, ge1_mul; [lra | apply pow_R1_Rle; lra]).
  assert (N2 : 1 <= c1) by (unfold c1; repeat apply ge1_mul; lra).
  assert (N3 : 1 <= c2) by (unfold c2; repeat apply ge1_mul; try lra; apply pow_R1_Rle; lra).
  assert (N4 : 1 <= c2 * (1 + sg)) by (apply ge1_mul; lra).
  assert (N5 : 1 <= (1 + rho) * (1 + sg)) by (apply ge1_mul; lra).
  assert (C1K : c1 <= K).
  { rewrite <- EK. rewrite (Rmult_assoc c1). assert (1 <= c2 * (1 + sg) * ((1 + rho) * (1 + sg))) by (apply ge1_mul; lra).
    rewrite Rmult_assoc. nra. }
  set (y := 45 * (u + g + w + e + (K - 1))) in *.
  assert (Y0 : 0 <= y) by (unfold y; lra).
  set (kap := (1 + y) * (c1 * c2 * (1 + sg))).
  assert (KC : c1 * (1 + sg) <= c1 * c2 * (1 + sg)) by (rewrite Rmult_assoc; apply Rmult_le_compat_l; nra).
  destruct (jacobian_rounding A fin val u g w e d sg rho s SA S6
    (conj Hu (conj Hg (conj Hw (conj He Hd)))) (ltac:(unfold sg; lra)) Hs Hes
    (rot_err A fin val u g w e d s SA (conj Hu (conj Hg (conj Hw (conj He Hd)))) Hs Hm) (ltac:(unfold rho; lra))
    rf ptf r theta ignore T' J' kap Hr Hp Ht E0 F0 E F) as (J & E1 & C).
  - fold n. fold cN. fold c1. fold c2. unfold kap. assert (0 <= y * (c1 * c2 * (1 + sg))) by (apply Rmult_le_pos; [lra | nra]). lra.
  - intros _. fold n. fold cN. fold c1. split; [unfold y in HK; lra|]. unfold kap. rewrite Rmult_assoc.
    assert (Q1 : 0 <= c1 * (1 + sg)) by (apply Rmult_le_pos; lra).
    apply Rmult_le_compat; [| exact Q1 | | exact KC]; unfold y; lra.
  - exists J. split; [exact E1|]. eapply Forall2_impl'; [|exact C]. intros cf c HC. apply col_close_near in HC.
    assert (EE : kap * (1 + rho) * (1 + sg) = K') by (unfold kap, K'; rewrite <- EK; ring). rewrite EE in HC. exact HC.
Qed.

(** The code raises exactly the errors of the exact computation. *)
Theorem C86_errors : forall A fin val u g w e d, sound A fin val u g w e ->
  forall rf ptf r theta ignore x, represents fin val d rf r -> Forall fin theta ->
  (g_jacobian A rf ptf theta ignore = Err x <-> robotjacobian r (map val theta) ignore = Err x).
Proof. intros A fin val u g w e d SA rf ptf r theta ignore x Hr Ht. exact (jacobian_error A fin val u g w e d SA rf ptf r theta ignore x Hr Ht). Qed.

(* ---- the reals ---- *)
Definition emb_c (c : vec6) : gcol real_arith := @GC real_arith (emb_v (hi3 c)) (emb_v (lo3 c)).
Definition emb_cols (o : out (list vec6)) : out (list (gcol real_arith)) := match o with Ok J => Ok (map emb_c J) | Err x => Err x end.
Lemma real_vsub a b : g_vsub real_arith (emb_v a) (emb_v b) = emb_v (vsub a b). Proof. reflexivity. Qed.
Lemma real_vzero : g_vzero real_arith = emb_v vzero. Proof. unfold g_vzero. rewrite real_lit0. reflexivity. Qed.
Definition emb_rec (x : jtype * vec3 * vec3 * R) : jtype * v3 R * v3 R * R := let '(j, h, p, t) := x in (j, emb_v h, emb_v p, t).
Lemma real_jac_loop ty : forall H P theta Q q,
  g_jac_loop real_arith ty (map emb_v H) (map emb_v P) theta (@GT real_arith (emb_m Q) (emb_v q))
  = match jac_loop ty H P theta Q q with Ok (l, Rp) => Ok (map emb_rec l, @GT real_arith (emb_m (fst Rp)) (emb_v (snd Rp))) | Err x => Err x end.
Proof.
  induction ty as [|j ty IH]; intros H P theta Q q; cbn [g_jac_loop jac_loop]; [reflexivity|].
  destruct H as [|h H]; [reflexivity|]. destruct P as [|p P]; [reflexivity|]. destruct theta as [|t theta]; [reflexivity|].
  cbn [map]. cbv zeta. rewrite real_step. destruct (fk_step j h p t Q q) as [Q' q'] eqn:ES. cbn [fst snd].
  rewrite IH. destruct (jac_loop ty H P theta Q' q') as [[l Rp]|x]; cbn [bind fst snd map]; [|reflexivity].
  cbn [gR gp]. rewrite real_mv. reflexivity.
Qed.
Lemma real_jac_cols n : forall l pOT, (length l <= n)%nat -> g_jac_cols real_arith (map emb_rec l) (emb_v pOT) = emb_cols (jac_cols l pOT).
Proof.
  induction n as [|n IH]; intros l pOT Len.
  { destruct l; [reflexivity | cbn in Len; lia]. }
  destruct l as [|[[[j h] p] t] l]; [reflexivity|]. cbn [length] in Len.
  destruct j; cbn [map emb_rec g_jac_cols jac_cols].
  - rewrite (IH l pOT) by lia. rewrite real_hat, real_vsub, real_mv. destruct (jac_cols l pOT); reflexivity.
  - rewrite (IH l pOT) by lia. rewrite real_vzero. destruct (jac_cols l pOT); reflexivity.
  - rewrite (IH l pOT) by lia. rewrite real_vzero. destruct (jac_cols l pOT); reflexivity.
  - destruct l as [|[[[j1 h1] p1] t1] l]; [reflexivity|]. destruct l as [|[[[j2 h2] p2] t2] l]; [reflexivity|].
    cbn [map emb_rec length] in *. rewrite (IH l pOT) by lia. rewrite real_vzero, real_rot, real_hat, real_vsub, !real_mv.
    destruct (jac_cols l pOT); reflexivity.
Qed.
Lemma real_base_col M c : g_base_col real_arith (emb_m M) (emb_c c) = emb_c (V6 (mvec M (hi3 c)) (mvec M (lo3 c))).
Proof.
  unfold g_base_col, emb_c, emb_m, v3map. cbn [gang glin w0 w1 w2 hi3 lo3]. rewrite real_lit0. destruct c as [[a0 a1 a2] [l0 l1 l2]].
  unfold emb_v, row0, row1, row2, mvec. cbn [w0 w1 w2 vx vy vz hi3 lo3 ndot real_arith]. unfold dot_R. cbn [combine fold_right fst snd].
  unfold dot. cbn [vx vy vz].
  f_equal; f_equal; match goal with |- ?a = ?b => change (@eq R a b) end; ring.
Qed.
Theorem C86_reals : forall r theta ignore,
  g_jacobian real_arith (emb_robot r) (option_map emb_v (rptool r)) theta ignore = emb_cols (robotjacobian r theta ignore).
Proof.
  intros r theta ignore. unfold g_jacobian, robotjacobian.
  assert (E : g_check_limits real_arith (emb_robot r) theta ignore = check_limits r theta ignore) by reflexivity.
  rewrite E. destruct (check_limits r theta ignore); cbn [bind emb_cols]; [|reflexivity].
  unfold emb_robot at 1. cbn [grP]. destruct (rP r) as [|p0 P]; cbn [map emb_cols]; [reflexivity|].
  rewrite real_I3. unfold emb_robot at 1 2. cbn [grtype grH]. rewrite real_jac_loop.
  destruct (jac_loop (rtype r) (rH r) P theta I3 p0) as [[l [Q p]]|x]; cbn [bind emb_cols fst snd]; [|reflexivity].
  match goal with |- context [g_tool_point real_arith ?a ?b ?c] =>
    assert (ET : g_tool_point real_arith a b c = emb_v (match rptool r with
      | Some pt => vadd (match rflange r with Some F => vadd p (mvec Q (tp F)) | None => p end)
                        (mvec (mmul Q (match rflange r with Some F => tR F | None => I3 end)) pt)
      | None => match rflange r with Some F => vadd p (mvec Q (tp F)) | None => p end end)) end.
  { unfold emb_robot, g_tool_point. cbn [grflange gR gp]. destruct (rflange r) as [F|], (rptool r) as [pt|]; cbn [option_map emb_t gR gp];
      rewrite ?real_I3, ?real_mm, ?real_mv, ?real_vadd; reflexivity. }
  rewrite ET. rewrite (real_jac_cols (length l)) by lia. clear ET.
  match goal with |- context [jac_cols l ?x] => destruct (jac_cols l x) as [J|x'] end; cbn [bind emb_cols]; [|reflexivity].
  unfold emb_robot. cbn [grbase]. destruct (rbase r) as [B|]; cbn [option_map emb_cols]; [|reflexivity].
  f_equal. rewrite !map_map. apply map_ext. intros c. cbn [emb_t gR]. apply real_base_col.
Qed.

(* ---- binary64 ---- *)
Lemma six : ((1 + uu) * (1 + uu)) ^ 6 - 1 <= 13 * uu /\ growE 6 0 <= 20 * ee.
Proof.
  pose proof uu_pos as P. pose proof uu_small as Q. pose proof ee_pos as P'. split.
  - assert (U2 : uu * uu <= uu * (1 / 1000000)) by (apply Rmult_le_compat_l; lra).
    assert (V : (1 + uu) * (1 + uu) <= 1 + 2.001 * uu) by lra.
    assert (V0 : 1 <= (1 + uu) * (1 + uu)) by nra.
    set (v := (1 + uu) * (1 + uu)) in *.
    assert (v * v <= (1 + 2.001 * uu) * (1 + 2.001 * uu)) by (apply Rmult_le_compat; lra).
    assert (W : v * v <= 1 + 4.1 * uu) by lra.
    assert (v * v * v <= (1 + 4.1 * uu) * (1 + 2.001 * uu)) by (apply Rmult_le_compat; nra).
    assert (W3 : v * v * v <= 1 + 6.2 * uu) by lra. assert (1 <= v * v * v) by nra.
    assert (v * v * v * (v * v * v) <= (1 + 6.2 * uu) * (1 + 6.2 * uu)) by (apply Rmult_le_compat; lra).
    replace (v ^ 6) with (v * v * v * (v * v * v)) by ring. lra.
  - cbn [growE].
    assert (S : forall E m, 0 <= E <= m * ee -> 0 <= m <= 18 -> 0 <= (1 + uu) * (E + 3 * ee) <= (m + 3.1) * ee).
    { intros E m [H1 H2] Hm. split; [apply Rmult_le_pos; lra|].
      apply Rle_trans with ((1 + uu) * ((m + 3) * ee)); [apply Rmult_le_compat_l; lra|].
      assert (uu * ((m + 3) * ee) <= 1 / 1000000 * ((m + 3) * ee)) by (apply Rmult_le_compat_r; [nra | lra]). nra. }
    pose proof (S 0 0 ltac:(lra) ltac:(lra)) as S1. pose proof (S _ _ S1 ltac:(lra)) as S2. pose proof (S _ _ S2 ltac:(lra)) as S3.
    pose proof (S _ _ S3 ltac:(lra)) as S4. pose proof (S _ _ S4 ltac:(lra)) as S5. pose proof (S _ _ S5 ltac:(lra)) as S6. lra.
Qed.
Lemma dot6_ok L dot : In dot b_dots -> sound6 (b64_arith L dot) bfin bval (13 * uu) (20 * ee).
Proof.
  intros HI a b. cbn [ndot b64_arith map num].
  set (l := [(a 0%nat, b 0%nat); (a 1%nat, b 1%nat); (a 2%nat, b 2%nat); (a 3%nat, b 3%nat); (a 4%nat, b 4%nat); (a 5%nat, b 5%nat)]).
  assert (K : forall s m, (m = l \/ m = rev l) ->
    fin_pairs m /\ acc (((1 + uu) * (1 + uu)) ^ length m) (growE (length m) 0) s (dot_pairs m) (abs_pairs m) ->
    (forall i, (i < 6)%nat -> bfin (a i) /\ bfin (b i)) /\
    Rabs (bval s - sum6 (fun i => bval (a i) * bval (b i))) <= 13 * uu * sum6 (fun i => Rabs (bval (a i) * bval (b i))) + 20 * ee).
  { intros s m Em [Fl (_ & Hs & _)]. destruct six as [T1 T2].
    assert (Len : length m = 6%nat) by (destruct Em as [-> | ->]; reflexivity). rewrite Len in Hs.
    assert (Fins : forall i, (i < 6)%nat -> bfin (a i) /\ bfin (b i)).
    { unfold fin_pairs in Fl. rewrite Forall_forall in Fl. intros i Hi. apply (Fl (a i, b i)).
      assert (I : In (a i, b i) l) by (unfold l; do 6 (destruct i as [|i]; [cbn [In]; tauto|]); lia).
      destruct Em as [-> | ->]; [exact I | apply -> in_rev; exact I]. }
    split; [exact Fins|].
    assert (ED : dot_pairs m = sum6 (fun i => bval (a i) * bval (b i))) by (unfold sum6; destruct Em as [-> | ->]; unfold l; cbn [rev app]; unfold dot_pairs; cbn [fold_right fst snd]; ring).
    assert (EA : abs_pairs m = sum6 (fun i => Rabs (bval (a i) * bval (b i)))) by (unfold sum6; destruct Em as [-> | ->]; unfold l; cbn [rev app]; unfold abs_pairs; cbn [fold_right fst snd]; ring).
    rewrite ED, EA in Hs. set (t := sum6 (fun i => Rabs (bval (a i) * bval (b i)))) in *.
    assert (0 <= t).
    { unfold t, sum6. pose proof (Rabs_pos (bval (a 0%nat) * bval (b 0%nat))). pose proof (Rabs_pos (bval (a 1%nat) * bval (b 1%nat))).
      pose proof (Rabs_pos (bval (a 2%nat) * bval (b 2%nat))). pose proof (Rabs_pos (bval (a 3%nat) * bval (b 3%nat))).
      pose proof (Rabs_pos (bval (a 4%nat) * bval (b 4%nat))). pose proof (Rabs_pos (bval (a 5%nat) * bval (b 5%nat))). lra. }
    pose proof (Rmult_le_compat_r t _ _ H T1). lra. }
  repeat (destruct HI as [<- | HI];
    [intros F; cbn [combine sum_pairs sum_lanes] in *;
     eapply K; [|apply sum_seq_acc + apply sum_fma_acc; exact F]; auto|]).
  destruct HI.
Qed.
Lemma sound_mono A fin val u g w e g' e' : sound A fin val u g w e -> g <= g' -> e <= e' -> sound A fin val u g' w e'.
Proof.
  intros [] Hg He. split; auto.
  - intros x y F. destruct (s_add x y F) as (F1 & F2 & H). split; [exact F1|]. split; [exact F2 | lra].
  - intros x y F. destruct (s_sub x y F) as (F1 & F2 & H). split; [exact F1|]. split; [exact F2 | lra].
  - intros x y F. destruct (s_mul x y F) as (F1 & F2 & H). split; [exact F1|]. split; [exact F2 | lra].
  - intros a b c x y z F. destruct (s_dot a b c x y z F) as (F1 & H). split; [exact F1|].
    assert (P : 0 <= Rabs (val a * val x) + Rabs (val b * val y) + Rabs (val c * val z))
      by (pose proof (Rabs_pos (val a * val x)); pose proof (Rabs_pos (val b * val y)); pose proof (Rabs_pos (val c * val z)); lra).
    pose proof (Rmult_le_compat_r _ _ _ P Hg). lra.
Qed.

Section Binary.
Context (L : libm) (dot : list b64 -> list b64 -> b64) (d s : R).
Hypothesis HL : libm_ok L (bpow radix2 (-52)).
Hypothesis HD : In dot b_dots.
Hypothesis Hd : 0 <= d <= 1 / 1000.
Hypothesis Hs : bpow radix2 (-1000) <= s <= 1.

Lemma b64_sound' : sound (b64_arith L dot) bfin bval uu (13 * uu) (2 * uu) (20 * ee).
Proof.
  assert (W : bpow radix2 (-52) = 2 * uu) by (unfold uu; replace (-52)%Z with (1 + -53)%Z by lia; rewrite bpow_plus; reflexivity).
  pose proof uu_pos. pose proof ee_pos. rewrite W in HL. eapply sound_mono; [apply b64_sound; [exact HL | exact HD] | lra | lra].
Qed.
Lemma b64_small : 0 < s <= 1 /\ 20 * ee <= uu * s /\ 20 * ee <= uu * (1 / 1000).
Proof.
  pose proof uu_pos as U0. pose proof (bpow_gt_0 radix2 (-1000)) as B0. split; [lra|].
  assert (Q : forall k, (-1017 <= k)%Z -> 20 * ee <= uu * bpow radix2 k).
  { intros k Hk. unfold uu, ee. apply Rle_trans with (bpow radix2 5 * bpow radix2 (-1075)).
    - apply Rmult_le_compat_r; [apply bpow_ge_0 | cbn; lra].
    - rewrite <- !bpow_plus. apply bpow_le. lia. }
  split.
  - apply Rle_trans with (uu * bpow radix2 (-1000)); [apply Q; lia | apply Rmult_le_compat_l; lra].
  - apply Rle_trans with (uu * bpow radix2 (-10)); [apply Q; lia | apply Rmult_le_compat_l; [lra | cbn; lra]].
Qed.
Lemma b64_K n :
  let K := (1 + 45 * (uu + 13 * uu + 2 * uu + 20 * ee + d)) ^ (2 * n + 3) * (1 + 3 * (uu + 13 * uu + 20 * ee)) ^ (8 * n + 8) in
  let err := INR (2 * n + 3) * (100 * d + bpow radix2 (-42)) in
  err <= 1 -> 1 <= K /\ K - 1 <= err /\ 6000 * uu <= err.
Proof.
  intros K err Herr. destruct b64_small as (S0 & ES & EE). pose proof uu_pos as U0. pose proof uu_small as U1. pose proof ee_pos as E0.
  set (rho := 45 * (uu + 13 * uu + 2 * uu + 20 * ee + d)) in *. set (sg := 3 * (uu + 13 * uu + 20 * ee)) in *.
  assert (R0 : 0 <= rho) by (unfold rho; lra). assert (G0 : 0 <= sg <= 42.1 * uu) by (unfold sg; lra).
  assert (U42 : 2048 * uu = bpow radix2 (-42)).
  { unfold uu. replace (-42)%Z with (11 + -53)%Z by lia. rewrite bpow_plus. f_equal. }
  set (m := (2 * n + 3)%nat) in *.
  assert (M3 : 3 <= INR m) by (replace 3 with (INR 3) by (cbn; lra); apply le_INR; unfold m; lia).
  split; [unfold K; apply ge1_mul; apply pow_R1_Rle; lra|].
  split; [|unfold err; rewrite <- U42; nra].
  set (x := 46 * d + 1000 * uu).
  assert (X : (1 + rho) * (1 + sg) ^ 4 <= 1 + x).
  { assert (Q1 : (1 + sg) * (1 + sg) <= 1 + 85 * uu) by nra.
    assert (Q2 : (1 + sg) ^ 4 <= 1 + 172 * uu) by (replace ((1 + sg) ^ 4) with ((1 + sg) * (1 + sg) * ((1 + sg) * (1 + sg))) by ring; nra).
    assert (Q3 : (1 + rho) * (1 + sg) ^ 4 <= (1 + rho) * (1 + 172 * uu)) by (apply Rmult_le_compat_l; lra).
    assert (Q4 : rho <= 45 * d + 721 * uu) by (unfold rho; lra).
    assert (Q5 : rho * uu <= (45 * d + 721 * uu) * uu) by (apply Rmult_le_compat_r; lra).
    assert (Q6 : d * uu <= d * (1 / 1000000)) by (apply Rmult_le_compat_l; lra).
    assert (Q7 : uu * uu <= uu * (1 / 1000000)) by (apply Rmult_le_compat_l; lra).
    unfold x. lra. }
  assert (P1 : (1 + sg) ^ (8 * n + 8) <= (1 + sg) ^ (4 * m)) by (apply Rle_pow; [lra | unfold m; lia]).
  assert (P2 : K <= ((1 + rho) * (1 + sg) ^ 4) ^ m).
  { unfold K. rewrite Rpow_mult_distr, <- pow_mult. apply Rmult_le_compat_l; [apply pow_le; lra | exact P1]. }
  assert (P3 : ((1 + rho) * (1 + sg) ^ 4) ^ m <= (1 + x) ^ m).
  { apply pow_incr. split; [apply Rmult_le_pos; [lra | apply pow_le; lra] | exact X]. }
  assert (X0 : 0 <= x) by (unfold x; lra).
  assert (P4 : 2 * (INR m * x) <= err).
  { unfold err. replace (2 * (INR m * x)) with (INR m * (2 * x)) by ring. apply Rmult_le_compat_l; [lra | unfold x; lra]. }
  pose proof (pow_close x m X0 ltac:(lra)) as P5. lra.
Qed.

Lemma span_jac_nonneg r th : 0 <= span_jac s r th.
Proof.
  destruct b64_small as (S0 & _). unfold span_jac. pose proof (span_links_nonneg s S0 (rP r)) as N1.
  assert (N2 : forall ty th, 0 <= span_joints s ty th).
  { induction ty as [|j ty IH]; intros th0; cbn [span_joints]; [lra|]. destruct th0 as [|t th0]; [destruct j; lra|].
    pose proof (IH th0). pose proof (Rabs_pos t). destruct j; lra. }
  assert (N3 : 0 <= span_tf s (rflange r)) by (destruct (rflange r) as [X|]; cbn [span_tf]; [pose proof (norm_nonneg (tp X)); lra | lra]).
  assert (N4 : 0 <= span_tool s (rptool r)) by (destruct (rptool r) as [X|]; cbn [span_tool]; [pose proof (norm_nonneg X); lra | lra]).
  pose proof (N2 (rtype r) th). lra.
Qed.
End Binary.

Theorem C86_binary64 : forall L dot d s, libm_ok L (bpow radix2 (-52)) -> In dot b_dots -> 0 <= d <= 1 / 1000 ->
  bpow radix2 (-1000) <= s <= 1 ->
  let A := b64_arith L dot in
  forall (rf : grobot A) ptf r theta ignore T' J', represents (A := A) bfin bval d rf r -> rep_opt (fun a b => vval (A := A) bval a = b) ptf (rptool r) ->
  Forall bfin theta -> g_fwdkin A rf theta ignore = Ok T' -> tfin (A := A) bfin T' ->
  g_jacobian A rf ptf theta ignore = Ok J' -> Forall (cfin (A := A) bfin) J' ->
  let err := INR (2 * length (rtype r) + 3) * (100 * d + bpow radix2 (-42)) in
  let far := 1 + 2 * span_jac s r (map bval theta) in
  (~ In Mobile3 (rtype r) -> err <= 1 ->
   exists J, robotjacobian r (map bval theta) ignore = Ok J /\ Forall2 (col_near (A := A) bval err (err * far)) J' J) /\
  (err <= 1 / 500 ->
   exists J, robotjacobian r (map bval theta) ignore = Ok J /\ Forall2 (col_near (A := A) bval (48 * err) (48 * err * far)) J' J).
Proof.
  intros L dot d s HL HD Hd Hs A rf ptf r theta ignore T' J' Hr Hp Ht E0 F0 E F err far.
  pose proof (b64_sound' L dot HL HD) as SA. pose proof (dot6_ok L dot HD) as S6.
  destruct (b64_small s Hs) as (S0 & ES & EE). pose proof uu_pos as U0. pose proof uu_small as U1. pose proof ee_pos as P0.
  assert (FP : 0 <= far) by (pose proof (span_jac_nonneg s Hs r (map bval theta)); unfold far; lra).
  split.
  - intros NM Herr. destruct (b64_K d s Hd Hs (length (rtype r)) Herr) as (K1 & K2 & _). fold err in K2.
    destruct (C86_rounding _ _ _ _ _ _ _ d s SA S6 ltac:(lra) ltac:(lra) ltac:(lra) ltac:(lra) ltac:(lra) ltac:(lra) S0 ES
      rf ptf r theta ignore T' J' Hr Hp Ht NM E0 F0 E F) as (J & E1 & C).
    exists J. split; [exact E1|]. cbv zeta in C. fold far in C. eapply Forall2_impl'; [|exact C]. intros cf c.
    apply col_near_mono; [exact K2 | apply Rmult_le_compat_r; assumption].
  - intros Herr. destruct (b64_K d s Hd Hs (length (rtype r)) ltac:(fold err; lra)) as (K1 & K2 & K3). fold err in K2, K3.
    set (K := _ ^ _ * _) in K1, K2.
    assert (KY : 45 * (uu + 13 * uu + 2 * uu + 20 * ee + (K - 1)) <= 46 * err) by lra.
    destruct (C86_mobile _ _ _ _ _ _ _ d s SA S6 ltac:(lra) ltac:(lra) ltac:(lra) ltac:(lra) ltac:(lra) ltac:(lra) S0 ES
      rf ptf r theta ignore T' J' Hr Hp Ht E0 F0 E F) as (J & E1 & C).
    { fold K. lra. }
    exists J. split; [exact E1|]. fold K in C. fold far in C. eapply Forall2_impl'; [|exact C]. intros cf c.
    assert (KK : (1 + 45 * (uu + 13 * uu + 2 * uu + 20 * ee + (K - 1))) * K - 1 <= 48 * err).
    { assert ((1 + 45 * (uu + 13 * uu + 2 * uu + 20 * ee + (K - 1))) * K <= (1 + 46 * err) * (1 + err)) by (apply Rmult_le_compat; lra).
      assert (err * err <= 1 / 500 * err) by (apply Rmult_le_compat_r; lra). lra. }
    apply col_near_mono; [exact KK | apply Rmult_le_compat_r; assumption].
Qed.

(** The robot of C76 with a rotated base and a tool point, and a robot with a mobile group. *)
Definition exj_rf : grobot exA :=
  @GRb exA [b_int3 0 0 1; b_int3 1 0 0; b_int3 0 1 0] [b_int3 0 0 1; b_int3 2 0 0; b_int3 0 3 0; b_int3 1 1 1]
       [Rotary; Prismatic; Rotary] (Some [b_ofZ (-3); b_ofZ 0; b_ofZ (-3)]) (Some [b_ofZ 3; b_ofZ 2; b_ofZ 3])
       None (Some (@GT exA (W3 (b_int3 0 (-1) 0) (b_int3 1 0 0) (b_int3 0 0 1)) (b_int3 0 0 7)))
       (Some (@GT exA (W3 (b_int3 0 (-1) 0) (b_int3 1 0 0) (b_int3 0 0 1)) (b_int3 0 0 7))).
Definition exj_r : robot :=
  Rb [V3 0 0 1; V3 1 0 0; V3 0 1 0] [V3 0 0 1; V3 2 0 0; V3 0 3 0; V3 1 1 1] [Rotary; Prismatic; Rotary]
     (Some [-3; 0; -3]) (Some [3; 2; 3]) None None None None (Some (V3 0 3 0)) None None None
     (Some (Tf (M3 0 (-1) 0 1 0 0 0 0 1) (V3 0 0 7) None None)) (Some (Tf (M3 0 (-1) 0 1 0 0 0 0 1) (V3 0 0 7) None None)).
Definition exm_rf : grobot exA :=
  @GRb exA [b_int3 1 0 0; b_int3 1 0 0; b_int3 0 0 1] [b_int3 0 0 1; b_int3 2 0 0; b_int3 0 3 0; b_int3 1 1 1]
       [Mobile3; Mobile2; Mobile2] None None None None None.
Definition exm_r : robot :=
  Rb [V3 1 0 0; V3 1 0 0; V3 0 0 1] [V3 0 0 1; V3 2 0 0; V3 0 3 0; V3 1 1 1] [Mobile3; Mobile2; Mobile2]
     None None None None None None None None None None None None.
Lemma exj_axis hf h : unit3 h -> vval (A := exA) bval hf = h -> rep_axis (A := exA) bval 0 hf h.
Proof. intros U E. split; [exact U|]. rewrite E, norm_self. lra. Qed.
Lemma ex86_rep : represents (A := exA) bfin bval 0 exj_rf exj_r /\ represents (A := exA) bfin bval 0 exm_rf exm_r.
Proof.
  assert (NU : forall z v, bval (b_ofZ z) = v -> is_finite (b_ofZ z) = true -> rep_num (A := exA) bfin bval (b_ofZ z) v).
  { intros z v E F. split; [exact F | exact E]. }
  assert (TF : rep_tf (A := exA) bval 0 (@GT exA (W3 (b_int3 0 (-1) 0) (b_int3 1 0 0) (b_int3 0 0 1)) (b_int3 0 0 7)) (Tf (M3 0 (-1) 0 1 0 0 0 0 1) (V3 0 0 7) None None)).
  { unfold rep_tf, mval, vval, b_int3. cbn [gR gp tR tp w0 w1 w2]. b_int. split; [|split; [|reflexivity]].
    + split; [la_ring | unfold det; cbn; ring].
    + replace (msub _ _) with (mconst 0) by (unfold mconst; la_ring). pose proof (frob_mconst 0). lra. }
  split; split; cbn [exj_rf exj_r exm_rf exm_r grtype grH grP grlower grupper grtool grflange grbase rtype rH rP rlower rupper rflange rbase rep_opt].
  - reflexivity.
  - repeat (apply Forall2_cons || apply Forall2_nil); apply exj_axis; unfold unit3, LinAlg.dot, vval, b_int3; cbn [w0 w1 w2 vx vy vz]; b_int; try reflexivity; ring.
  - unfold vval, b_int3. cbn [map w0 w1 w2]. b_int. reflexivity.
  - repeat (apply Forall2_cons || apply Forall2_nil); apply NU; b_int; reflexivity.
  - repeat (apply Forall2_cons || apply Forall2_nil); apply NU; b_int; reflexivity.
  - exact I.
  - exact TF.
  - exact TF.
  - reflexivity.
  - repeat (apply Forall2_cons || apply Forall2_nil); apply exj_axis; unfold unit3, LinAlg.dot, vval, b_int3; cbn [w0 w1 w2 vx vy vz]; b_int; try reflexivity; ring.
  - unfold vval, b_int3. cbn [map w0 w1 w2]. b_int. reflexivity.
  - exact I.
  - exact I.
  - exact I.
  - exact I.
  - exact I.
Qed.
Definition cols_finite (n : nat) (o : out (list (gcol exA))) : bool :=
  match o with
  | Ok J => Nat.eqb (length J) n && forallb (fun c : gcol exA => forallb (@is_finite 53 1024) [w0 (gang c); w1 (gang c); w2 (gang c); w0 (glin c); w1 (glin c); w2 (glin c)]) J
  | Err _ => false
  end.
Lemma cols_finite_ok n o : cols_finite n o = true -> exists J, o = Ok J /\ length J = n /\ Forall (cfin (A := exA) bfin) J.
Proof.
  destruct o as [J|x]; [|discriminate]. cbn [cols_finite]. intros H. exists J. split; [reflexivity|].
  apply andb_true_iff in H as [HN H]. apply Nat.eqb_eq in HN. split; [exact HN|]. rewrite forallb_forall in H. apply Forall_forall. intros c Hc. specialize (H c Hc). cbn [forallb] in H.
  rewrite !andb_true_iff in H. unfold cfin, vfin, bfin. tauto.
Qed.
Definition exj_pt : option (v3 b64) := Some (b_int3 0 3 0).
Lemma ex86_run : all_finite (g_fwdkin exA exj_rf ex_theta false) = true /\ cols_finite 3 (g_jacobian exA exj_rf exj_pt ex_theta false) = true /\
  all_finite (g_fwdkin exA exm_rf [b_lit 3 2; b_tiny; b_tiny] false) = true /\ cols_finite 2 (g_jacobian exA exm_rf None [b_lit 3 2; b_tiny; b_tiny] false) = true.
Proof. vm_compute. auto. Qed.

Example C86_ex :
  (exists J' J, g_jacobian exA exj_rf exj_pt ex_theta false = Ok J' /\ robotjacobian exj_r (map bval ex_theta) false = Ok J /\ length J = 3%nat /\
     Forall2 (col_near (A := exA) bval (9 * bpow radix2 (-42)) (9 * bpow radix2 (-42) * (1 + 2 * span_jac 1 exj_r (map bval ex_theta)))) J' J) /\
  (exists J' J, g_jacobian exA exm_rf None [b_lit 3 2; b_tiny; b_tiny] false = Ok J' /\
     robotjacobian exm_r (map bval [b_lit 3 2; b_tiny; b_tiny]) false = Ok J /\ length J = 2%nat /\
     Forall2 (col_near (A := exA) bval (48 * (9 * bpow radix2 (-42)))
       (48 * (9 * bpow radix2 (-42)) * (1 + 2 * span_jac 1 exm_r (map bval [b_lit 3 2; b_tiny; b_tiny])))) J' J).
Proof.
  destruct ex86_rep as [RJ RM]. destruct ex86_run as (R1 & R2 & R3 & R4).
  assert (S1 : bpow radix2 (-1000) <= 1 <= 1) by (split; [|lra]; apply Rle_trans with (bpow radix2 0); [apply bpow_le; lia | cbn; lra]).
  assert (B : 9 * bpow radix2 (-42) <= 1 / 500) by (cbn; lra).
  assert (N9 : INR (2 * 3 + 3) * (100 * 0 + bpow radix2 (-42)) = 9 * bpow radix2 (-42)) by (replace (INR (2 * 3 + 3)) with 9 by (cbn; lra); ring).
  assert (FT : Forall bfin ex_theta) by (repeat (apply Forall_cons || apply Forall_nil); reflexivity).
  assert (FT' : Forall bfin [b_lit 3 2; b_tiny; b_tiny]) by (repeat (apply Forall_cons || apply Forall_nil); reflexivity).
  split.
  - destruct (all_finite_ok _ R1) as (T' & E0 & F0). destruct (cols_finite_ok _ _ R2) as (J' & E1 & N1 & F1).
    destruct (C86_binary64 table_libm (fun a b => sum_seq (combine a b)) 0 1 table_libm_ok ltac:(left; reflexivity) ltac:(lra) S1
      exj_rf exj_pt exj_r ex_theta false T' J' RJ) as [HA _]; [| exact FT | exact E0 | exact F0 | exact E1 | exact F1 |].
    { cbn [exj_pt exj_r rptool rep_opt]. unfold vval, b_int3. cbn [w0 w1 w2]. b_int. reflexivity. }
    change (length (rtype exj_r)) with 3%nat in HA. rewrite N9 in HA.
    destruct HA as (J & EJ & CJ); [cbn; intuition discriminate | lra |].
    exists J', J. split; [exact E1|]. split; [exact EJ|]. split; [|exact CJ].
    rewrite <- N1. symmetry. exact (Forall2_len _ _ _ CJ).
  - destruct (all_finite_ok _ R3) as (T' & E0 & F0). destruct (cols_finite_ok _ _ R4) as (J' & E1 & N1 & F1).
    destruct (C86_binary64 table_libm (fun a b => sum_seq (combine a b)) 0 1 table_libm_ok ltac:(left; reflexivity) ltac:(lra) S1
      exm_rf None exm_r [b_lit 3 2; b_tiny; b_tiny] false T' J' RM) as [_ HB]; [exact I | exact FT' | exact E0 | exact F0 | exact E1 | exact F1 |].
    change (length (rtype exm_r)) with 3%nat in HB. rewrite N9 in HB.
    destruct HB as (J & EJ & CJ); [lra |].
    exists J', J. split; [exact E1|]. split; [exact EJ|]. split; [|exact CJ].
    rewrite <- N1. symmetry. exact (Forall2_len _ _ _ CJ).
Qed.

Print Assumptions C86_rounding.
Print Assumptions C86_mobile.
Print Assumptions C86_errors.
Print Assumptions C86_reals.
Print Assumptions C86_binary64.
