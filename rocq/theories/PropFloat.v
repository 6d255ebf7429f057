(** Properties C76-C78: forward kinematics and products of transforms in floating-point arithmetic, and robots
    whose axes are only nearly unit vectors. *)
From Coq Require Import Reals ZArith List Bool Lra Lia.
From Flocq Require Import Core.Core IEEE754.BinarySingleNaN.
From Verif Require Import LinAlg RealAux Py FactsReal FactsLinAlg ModelRot SpecRot FactsRot ModelTransform ModelRobot ModelKin SpecKin FactsKin FactsJac SpecSub FactsSub
  ModelFloat FactsNorm SpecRound FactsRound FactsB64 FactsFloat.
Import ListNotations.
Open Scope R_scope.

(* ================= C76 ================= *)
(** Over any arithmetic that meets the contract of SpecRound. *)
Theorem C76_rounding : forall A fin val u g w e d s,
  sound A fin val u g w e -> 0 <= u -> 0 <= g -> 0 <= w -> 0 <= e -> 0 <= d -> 45 * (u + g + w + e + d) <= 1 / 10 ->
  0 < s <= 1 -> e <= u * s ->
  forall rf r theta ignore T', represents fin val d rf r -> Forall fin theta ->
  g_fwdkin A rf theta ignore = Ok T' -> tfin fin T' ->
  exists T, fwdkin r (map val theta) ignore = Ok T /\
    let n := length (rtype r) in
    let K := (1 + 45 * (u + g + w + e + d)) ^ (n + 3) * (1 + 3 * (u + g + e)) ^ (4 * n + 6) in
    frob (msub (mval val (gR T')) (tR T)) <= K - 1 /\
    norm (vsub (vval val (gp T')) (tp T)) <= (K - 1) * span s r (map val theta).
Proof.
  intros A fin val u g w e d s SA Hu Hg Hw He Hd Hm Hs Hes rf r theta ignore T' Hr Ht E F.
  destruct (fwdkin_rounding A fin val u g w e d (3 * (u + g + e)) (45 * (u + g + w + e + d)) s SA
    (conj Hu (conj Hg (conj Hw (conj He Hd)))) (ltac:(lra)) Hs Hes
    (rot_err A fin val u g w e d s SA (conj Hu (conj Hg (conj Hw (conj He Hd)))) Hs Hm) (ltac:(lra))
    rf r theta ignore T' Hr Ht E F) as (T & E1 & C).
  exists T. split; [exact E1|]. cbv zeta. destruct C as (C1 & C2 & _).
  set (rho := 45 * (u + g + w + e + d)) in *. set (sg := 3 * (u + g + e)) in *.
  replace ((1 + rho) ^ (length (rtype r) + 3) * (1 + sg) ^ (4 * length (rtype r) + 6))
    with (((1 + rho) * (1 + sg) ^ 4) ^ length (rtype r) * ((1 + rho) * (1 + sg) ^ 2) ^ 3).
  2: { rewrite !Rpow_mult_distr, !pow_add, <- !pow_mult. replace (2 * 3)%nat with 6%nat by reflexivity. ring. }
  split; [apply C1 | apply C2].
Qed.

(** The code raises exactly the errors the exact computation raises. *)
Theorem C76_errors : forall A fin val u g w e d, sound A fin val u g w e ->
  forall rf r theta ignore x, represents fin val d rf r -> Forall fin theta ->
  (g_fwdkin A rf theta ignore = Err x <-> fwdkin r (map val theta) ignore = Err x).
Proof. intros A fin val u g w e d SA rf r theta ignore x Hr Ht. exact (fwdkin_error A fin val u g w e d SA rf r theta ignore x Hr Ht). Qed.

(** Over the reals the same text is the model of ModelKin. *)
Theorem C76_reals : forall r theta ignore, g_fwdkin real_arith (emb_robot r) theta ignore = emb_out (fwdkin r theta ignore).
Proof. exact real_fwdkin. Qed.

(** IEEE binary64, any evaluation order of the dot products, and a math library whose sin and cos
    are within 2^-52. *)
Theorem C76_binary64 : forall L dot d s, libm_ok L (bpow radix2 (-52)) -> In dot b_dots -> 0 <= d <= 1 / 1000 ->
  bpow radix2 (-1000) <= s <= 1 ->
  let A := b64_arith L dot in
  forall (rf : grobot A) r theta ignore T', represents (A := A) bfin bval d rf r -> Forall bfin theta ->
  g_fwdkin A rf theta ignore = Ok T' -> tfin (A := A) bfin T' ->
  let n := INR (length (rtype r) + 3) in
  let err := n * (100 * d + bpow radix2 (-42)) in
  err <= 1 ->
  exists T, fwdkin r (map bval theta) ignore = Ok T /\
    frob (msub (mval (A := A) bval (gR T')) (tR T)) <= err /\
    norm (vsub (vval (A := A) bval (gp T')) (tp T)) <= err * span s r (map bval theta).
Proof.
  intros L dot d s HL HD Hd Hs A rf r theta ignore T' Hr Ht E F n err Herr.
  pose proof uu_pos as U0. pose proof uu_small as U1. pose proof ee_pos as E0.
  assert (W : bpow radix2 (-52) = 2 * uu) by (unfold uu; replace (-52)%Z with (1 + -53)%Z by lia; rewrite bpow_plus; reflexivity).
  assert (ES : 10 * ee <= uu * s).
  { apply Rle_trans with (uu * bpow radix2 (-1000)); [|apply Rmult_le_compat_l; lra].
    unfold uu, ee. rewrite <- bpow_plus. apply Rle_trans with (bpow radix2 4 * bpow radix2 (-1075)).
    - apply Rmult_le_compat_r; [apply bpow_ge_0 | cbn; lra].
    - rewrite <- bpow_plus. apply bpow_le. lia. }
  assert (S0 : 0 < s <= 1) by (pose proof (bpow_gt_0 radix2 (-1000)); lra).
  assert (EU : 10 * ee <= uu * 1) by (eapply Rle_trans; [exact ES|]; apply Rmult_le_compat_l; lra).
  rewrite W in HL.
  destruct (C76_rounding _ _ _ _ _ _ _ d s (b64_sound L _ dot HL HD) ltac:(lra) ltac:(lra) ltac:(lra) ltac:(lra) ltac:(lra) ltac:(lra) S0 ES
    rf r theta ignore T' Hr Ht E F) as (T & E1 & C1 & C2).
  assert (EE : 10 * ee <= uu * (1 / 1000)).
  { unfold uu, ee. apply Rle_trans with (bpow radix2 4 * bpow radix2 (-1075)).
    - apply Rmult_le_compat_r; [apply bpow_ge_0 | cbn; lra].
    - apply Rle_trans with (bpow radix2 (-53) * bpow radix2 (-10)); [rewrite <- !bpow_plus; apply bpow_le; lia|].
      apply Rmult_le_compat_l; [apply bpow_ge_0|]. cbn. lra. }
  exists T. split; [exact E1|]. cbv zeta in C1, C2.
  set (rho := 45 * (uu + 7 * uu + 2 * uu + 10 * ee + d)) in *. set (sg := 3 * (uu + 7 * uu + 10 * ee)) in *.
  assert (HK : (1 + rho) ^ (length (rtype r) + 3) * (1 + sg) ^ (4 * length (rtype r) + 6) - 1 <= err).
  { assert (R0 : 0 <= rho) by (unfold rho; lra). assert (G0 : 0 <= sg <= 25 * uu) by (unfold sg; lra).
    set (x := 46 * d + 560 * uu).
    assert (X : (1 + rho) * (1 + sg) ^ 4 <= 1 + x).
    { assert (Q1 : (1 + sg) * (1 + sg) <= 1 + 51 * uu) by nra.
      assert (Q2 : (1 + sg) ^ 4 <= 1 + 103 * uu) by (replace ((1 + sg) ^ 4) with ((1 + sg) * (1 + sg) * ((1 + sg) * (1 + sg))) by ring; nra).
      assert (Q3 : (1 + rho) * (1 + sg) ^ 4 <= (1 + rho) * (1 + 103 * uu)) by (apply Rmult_le_compat_l; lra).
      assert (Q4 : rho <= 45 * d + 451 * uu) by (unfold rho; lra).
      assert (Q5 : rho * uu <= (45 * d + 451 * uu) * uu) by (apply Rmult_le_compat_r; lra).
      assert (Q6 : d * uu <= d * (1 / 1000000)) by (apply Rmult_le_compat_l; lra).
      assert (Q7 : uu * uu <= uu * (1 / 1000000)) by (apply Rmult_le_compat_l; lra).
      unfold x. lra. }
    set (m := (length (rtype r) + 3)%nat) in *.
    assert (P1 : (1 + sg) ^ (4 * length (rtype r) + 6) <= (1 + sg) ^ (4 * m)) by (apply Rle_pow; [lra | unfold m; lia]).
    assert (P2 : (1 + rho) ^ m * (1 + sg) ^ (4 * length (rtype r) + 6) <= ((1 + rho) * (1 + sg) ^ 4) ^ m).
    { rewrite Rpow_mult_distr, <- pow_mult. apply Rmult_le_compat_l; [apply pow_le; lra | exact P1]. }
    assert (P3 : ((1 + rho) * (1 + sg) ^ 4) ^ m <= (1 + x) ^ m).
    { apply pow_incr. split; [apply Rmult_le_pos; [lra | apply pow_le; lra] | exact X]. }
    assert (X0 : 0 <= x) by (unfold x; lra).
    assert (U42 : 1200 * uu <= bpow radix2 (-42)).
    { unfold uu. replace (-42)%Z with (11 + -53)%Z by lia. rewrite bpow_plus. apply Rmult_le_compat_r; [apply bpow_ge_0 | cbn; lra]. }
    pose proof (pos_INR m) as M0.
    assert (P4 : 2 * (INR m * x) <= err).
    { unfold err, n. replace (2 * (INR m * x)) with (INR m * (2 * x)) by ring. apply Rmult_le_compat_l; [exact M0 | unfold x; lra]. }
    pose proof (pow_close x m X0 ltac:(lra)) as P5. lra. }
  set (K := (1 + rho) ^ (length (rtype r) + 3) * (1 + sg) ^ (4 * length (rtype r) + 6) - 1) in *.
  split; [exact (Rle_trans _ _ _ C1 HK)|]. eapply Rle_trans; [exact C2|]. apply Rmult_le_compat_r; [|exact HK].
  unfold span. pose proof (span_links_nonneg s S0 (rP r)) as N1.
  assert (N2 : forall ty th, 0 <= span_joints s ty th).
  { induction ty as [|j ty IH]; intros th; cbn [span_joints]; [lra|]. destruct th as [|t th]; [destruct j; lra|].
    pose proof (IH th). pose proof (Rabs_pos t). destruct j; lra. }
  assert (N3 : forall o, 0 <= span_tf s o) by (intros [X|]; cbn [span_tf]; [pose proof (norm_nonneg (tp X)); lra | lra]).
  pose proof (N2 (rtype r) (map bval theta)). pose proof (N3 (rflange r)). pose proof (N3 (tool_transform r)). pose proof (N3 (rbase r)). lra.
Qed.

(** A robot with a rotary, a prismatic and a rotary joint and a flange; all its numbers are floats. *)
Definition b_int3 (x y z : Z) : v3 b64 := W3 (b_ofZ x) (b_ofZ y) (b_ofZ z).
Definition exA := b64_arith table_libm (fun a b => sum_seq (combine a b)).
Definition ex_rf : grobot exA :=
  @GRb exA [b_int3 0 0 1; b_int3 1 0 0; b_int3 0 1 0] [b_int3 0 0 1; b_int3 2 0 0; b_int3 0 3 0; b_int3 1 1 1]
       [Rotary; Prismatic; Rotary] (Some [b_ofZ (-3); b_ofZ 0; b_ofZ (-3)]) (Some [b_ofZ 3; b_ofZ 2; b_ofZ 3])
       None (Some (@GT exA (W3 (b_int3 0 (-1) 0) (b_int3 1 0 0) (b_int3 0 0 1)) (b_int3 0 0 7))) None.
Definition ex_r : robot :=
  Rb [V3 0 0 1; V3 1 0 0; V3 0 1 0] [V3 0 0 1; V3 2 0 0; V3 0 3 0; V3 1 1 1] [Rotary; Prismatic; Rotary]
     (Some [-3; 0; -3]) (Some [3; 2; 3]) None None None None None None None None
     (Some (Tf (M3 0 (-1) 0 1 0 0 0 0 1) (V3 0 0 7) None None)) None.
Definition ex_theta : list b64 := [b_tiny; b_lit 3 2; b_ofZ 0].

Lemma bval_int_0 : bval (b_ofZ 0) = 0. Proof. vm_compute. lra. Qed.
Lemma bval_int_1 : bval (b_ofZ 1) = 1. Proof. vm_compute. lra. Qed.
Lemma bval_int_2 : bval (b_ofZ 2) = 2. Proof. vm_compute. lra. Qed.
Lemma bval_int_3 : bval (b_ofZ 3) = 3. Proof. vm_compute. lra. Qed.
Lemma bval_int_7 : bval (b_ofZ 7) = 7. Proof. vm_compute. lra. Qed.
Lemma bval_int_m1 : bval (b_ofZ (-1)) = -1. Proof. vm_compute. lra. Qed.
Lemma bval_int_m3 : bval (b_ofZ (-3)) = -3. Proof. vm_compute. lra. Qed.
Ltac b_int := rewrite ?bval_int_0, ?bval_int_1, ?bval_int_2, ?bval_int_3, ?bval_int_7, ?bval_int_m1, ?bval_int_m3.
Lemma norm_self a : norm (vsub a a) = 0.
Proof. rewrite vsub_self, norm_vzero. reflexivity. Qed.

Lemma C76_ex_rep : represents (A := exA) bfin bval 0 ex_rf ex_r.
Proof.
  assert (AX : forall hf h, unit3 h -> vval (A := exA) bval hf = h -> rep_axis (A := exA) bval 0 hf h).
  { intros hf h U E. split; [exact U|]. rewrite E, norm_self. lra. }
  assert (NU : forall z v, bval (b_ofZ z) = v -> is_finite (b_ofZ z) = true -> rep_num (A := exA) bfin bval (b_ofZ z) v).
  { intros z v E F. split; [exact F | exact E]. }
  split; cbn [ex_rf ex_r grtype grH grP grlower grupper grtool grflange grbase rtype rH rP rlower rupper rflange rbase rep_opt].
  - reflexivity.
  - repeat (apply Forall2_cons || apply Forall2_nil); apply AX; unfold unit3, dot, vval, b_int3; cbn [w0 w1 w2 vx vy vz]; b_int; try reflexivity; ring.
  - unfold vval, b_int3. cbn [map w0 w1 w2]. b_int. reflexivity.
  - repeat (apply Forall2_cons || apply Forall2_nil); apply NU; b_int; reflexivity.
  - repeat (apply Forall2_cons || apply Forall2_nil); apply NU; b_int; reflexivity.
  - exact I.
  - unfold rep_tf, mval, vval, b_int3. cbn [gR gp tR tp w0 w1 w2]. b_int. split; [|split; [|reflexivity]].
    + split; [la_ring | unfold det; cbn; ring].
    + replace (msub _ _) with (mconst 0) by (unfold mconst; la_ring). pose proof (frob_mconst 0). lra.
  - exact I.
Qed.
Definition all_finite (o : out (gtf exA)) : bool :=
  match o with
  | Ok (GT M p) => forallb (fun a => forallb (@is_finite 53 1024) [w0 a; w1 a; w2 a]) [w0 M; w1 M; w2 M; p]
  | Err _ => false
  end.
Lemma all_finite_ok o : all_finite o = true -> exists T', o = Ok T' /\ tfin (A := exA) bfin T'.
Proof.
  destruct o as [[M p]|x]; [|discriminate]. cbn [all_finite forallb]. rewrite !andb_true_iff. intros H. exists (GT M p).
  split; [reflexivity|]. unfold tfin, mfin, vfin, bfin. cbn [gR gp]. tauto.
Qed.
Lemma C76_ex_run : all_finite (g_fwdkin exA ex_rf ex_theta false) = true. Proof. vm_compute. reflexivity. Qed.
Example C76_ex : exists T' T, g_fwdkin exA ex_rf ex_theta false = Ok T' /\ tfin (A := exA) bfin T' /\
  fwdkin ex_r (map bval ex_theta) false = Ok T /\
  norm (vsub (vval (A := exA) bval (gp T')) (tp T)) <= 6 * bpow radix2 (-42) * span 1 ex_r (map bval ex_theta).
Proof.
  destruct (all_finite_ok _ C76_ex_run) as (T' & E & F).
  destruct (C76_binary64 table_libm (fun a b => sum_seq (combine a b)) 0 1 table_libm_ok ltac:(left; reflexivity) ltac:(lra)
    ltac:(split; [|lra]; apply Rle_trans with (bpow radix2 0); [apply bpow_le; lia | cbn; lra])
    ex_rf ex_r ex_theta false T' C76_ex_rep) as (T & E1 & _ & C).
  - repeat (apply Forall_cons || apply Forall_nil); reflexivity.
  - exact E.
  - exact F.
  - cbn. lra.
  - exists T', T. split; [exact E|]. split; [exact F|]. split; [exact E1|].
    eapply Rle_trans; [exact C|]. apply Req_le. f_equal. change (length (rtype ex_r) + 3)%nat with 6%nat.
    replace (INR 6) with 6 by (cbn; lra). ring.
Qed.
(** A library that rounds sin and cos correctly everywhere meets the contract. *)
Example C76_ex_libm : libm_ok exact_libm (bpow radix2 (-52)).
Proof. exact exact_libm_ok. Qed.

(* ================= C77 ================= *)
(** how far the product of the transforms can reach *)
Definition reach (s : R) (l : list transform) : R := fold_right (fun T x => norm (tp T) + s + x) 0 l.
Theorem C77_rounding : forall A fin val u g w e d s,
  sound A fin val u g w e -> 0 <= u -> 0 <= g -> 0 <= w -> 0 <= e -> 0 <= d -> 0 < s <= 1 -> e <= u * s ->
  forall Tf1 l T1 l', rep_tf (A := A) val d Tf1 T1 -> Forall2 (rep_tf (A := A) val d) l l' -> tfin fin (fold_left (g_tmul A) l Tf1) ->
    let K := (1 + d) ^ (1 + length l) * (1 + 3 * (u + g + e)) ^ (2 * length l) in
    let X := fold_left (g_tmul A) l Tf1 in let T := fold_left tmul l' T1 in
    frob (msub (mval val (gR X)) (tR T)) <= K - 1 /\
    norm (vsub (vval val (gp X)) (tp T)) <= (K - 1) * reach s (T1 :: l').
Proof.
  intros A fin val u g w e d s SA Hu Hg Hw He Hd Hs Hes Tf1 l T1 l' H1 Hl F K X T.
  pose proof (close_rep A val u g w e d d s (conj Hu (conj Hg (conj Hw (conj He Hd)))) Hs (Rle_refl d) _ _ H1) as CR.
  destruct (prod_rounding A fin val u g w e d (3 * (u + g + e)) d s SA (conj Hu (conj Hg (conj Hw (conj He Hd)))) ltac:(lra) Hs Hes (Rle_refl d)
    l l' (1 + d) Tf1 T1 (norm (tp T1) + s) X Hl ltac:(lra) eq_refl F CR) as ((C1 & _) & (C2 & _) & _).
  set (sg := 3 * (u + g + e)) in *.
  assert (EK : (1 + d) * ((1 + d) * (1 + sg) ^ 2) ^ length l = K).
  { unfold K. rewrite Rpow_mult_distr, <- pow_mult. cbn [Nat.add pow]. ring. }
  rewrite EK in C1, C2. split; [exact C1 | exact C2].
Qed.
Theorem C77_binary64 : forall L dot d s w, libm_ok L w -> 0 <= w -> In dot b_dots -> 0 <= d <= 1 / 1000 -> bpow radix2 (-1000) <= s <= 1 ->
  let A := b64_arith L dot in
  forall (Tf1 : gtf A) l T1 l', rep_tf (A := A) bval d Tf1 T1 -> Forall2 (rep_tf (A := A) bval d) l l' ->
  let X := fold_left (g_tmul A) l Tf1 in let T := fold_left tmul l' T1 in
  tfin (A := A) bfin X ->
  let err := INR (1 + length l) * (3 * d + bpow radix2 (-46)) in
  err <= 1 ->
  frob (msub (mval (A := A) bval (gR X)) (tR T)) <= err /\
  norm (vsub (vval (A := A) bval (gp X)) (tp T)) <= err * reach s (T1 :: l').
Proof.
  intros L dot d s w HL Hw HD Hd Hs A Tf1 l T1 l' H1 Hl X T F err Herr.
  pose proof uu_pos as U0. pose proof uu_small as U1. pose proof ee_pos as E0.
  assert (ES : 10 * ee <= uu * s).
  { apply Rle_trans with (uu * bpow radix2 (-1000)); [|apply Rmult_le_compat_l; lra].
    unfold uu, ee. rewrite <- bpow_plus. apply Rle_trans with (bpow radix2 4 * bpow radix2 (-1075)).
    - apply Rmult_le_compat_r; [apply bpow_ge_0 | cbn; lra].
    - rewrite <- bpow_plus. apply bpow_le. lia. }
  assert (S0 : 0 < s <= 1) by (pose proof (bpow_gt_0 radix2 (-1000)); lra).
  assert (EE : 10 * ee <= uu * (1 / 1000)).
  { unfold uu, ee. apply Rle_trans with (bpow radix2 4 * bpow radix2 (-1075)).
    - apply Rmult_le_compat_r; [apply bpow_ge_0 | cbn; lra].
    - apply Rle_trans with (bpow radix2 (-53) * bpow radix2 (-10)); [rewrite <- !bpow_plus; apply bpow_le; lia|].
      apply Rmult_le_compat_l; [apply bpow_ge_0|]. cbn. lra. }
  destruct (C77_rounding _ _ _ _ _ _ _ d s (b64_sound L _ dot HL HD) ltac:(lra) ltac:(lra) ltac:(lra) ltac:(lra) ltac:(lra) S0 ES
    Tf1 l T1 l' H1 Hl F) as (C1 & C2).
  fold A X T in C1, C2. set (sg := 3 * (uu + 7 * uu + 10 * ee)) in *. set (m := (1 + length l)%nat) in *.
  assert (HK : (1 + d) ^ m * (1 + sg) ^ (2 * length l) - 1 <= err).
  { assert (G0 : 0 <= sg <= 25 * uu) by (unfold sg; lra).
    set (x := 3 / 2 * d + 60 * uu).
    assert (Q1 : (1 + sg) ^ 2 <= 1 + 51 * uu) by (cbn [pow]; nra).
    assert (Q : (1 + d) * (1 + sg) ^ 2 <= 1 + x).
    { assert (Q3 : (1 + d) * (1 + sg) ^ 2 <= (1 + d) * (1 + 51 * uu)) by (apply Rmult_le_compat_l; lra).
      assert (Q6 : d * uu <= d * (1 / 1000000)) by (apply Rmult_le_compat_l; lra). unfold x. lra. }
    assert (P1 : (1 + sg) ^ (2 * length l) <= (1 + sg) ^ (2 * m)) by (apply Rle_pow; [lra | unfold m; lia]).
    assert (P2 : (1 + d) ^ m * (1 + sg) ^ (2 * length l) <= ((1 + d) * (1 + sg) ^ 2) ^ m).
    { rewrite Rpow_mult_distr, <- pow_mult. apply Rmult_le_compat_l; [apply pow_le; lra | exact P1]. }
    assert (P3 : ((1 + d) * (1 + sg) ^ 2) ^ m <= (1 + x) ^ m).
    { apply pow_incr. split; [apply Rmult_le_pos; [lra | apply pow_le; lra] | exact Q]. }
    assert (X0 : 0 <= x) by (unfold x; lra).
    assert (U46 : 120 * uu <= bpow radix2 (-46)).
    { unfold uu. replace (-46)%Z with (7 + -53)%Z by lia. rewrite bpow_plus. apply Rmult_le_compat_r; [apply bpow_ge_0 | cbn; lra]. }
    pose proof (pos_INR m) as M0.
    assert (P4 : 2 * (INR m * x) <= err).
    { unfold err. replace (2 * (INR m * x)) with (INR m * (2 * x)) by ring. apply Rmult_le_compat_l; [exact M0 | unfold x; lra]. }
    pose proof (pow_close x m X0 ltac:(lra)) as P5. lra. }
  split; [exact (Rle_trans _ _ _ C1 HK)|]. eapply Rle_trans; [exact C2|]. apply Rmult_le_compat_r; [|exact HK].
  generalize (T1 :: l'). induction l0 as [|Y l0 IH]; cbn [reach fold_right]; [lra|]. pose proof (norm_nonneg (tp Y)). unfold reach in IH. lra.
Qed.
(** Five screw motions; the stored rotation of the second is 1/1000 off. *)
Definition ex_screw : gtf exA := @GT exA (W3 (b_int3 0 (-1) 0) (b_int3 1 0 0) (b_int3 0 0 1)) (b_int3 1 2 3).
Definition ex_screw' : gtf exA := @GT exA (W3 (W3 (b_lit 1 1024) (b_ofZ (-1)) (b_ofZ 0)) (b_int3 1 0 0) (b_int3 0 0 1)) (b_int3 1 2 3).
Definition ex_turn : transform := Tf (M3 0 (-1) 0 1 0 0 0 0 1) (V3 1 2 3) None None.
Example C77_ex : Forall2 (rep_tf (A := exA) bval (1 / 1000)) [ex_screw; ex_screw'; ex_screw; ex_screw] [ex_turn; ex_turn; ex_turn; ex_turn] /\
  all_finite (Ok (fold_left (g_tmul exA) [ex_screw; ex_screw'; ex_screw; ex_screw] ex_screw)) = true /\
  INR 5 * (3 * (1 / 1000) + bpow radix2 (-46)) <= 1.
Proof.
  assert (S0 : is_SO3 (tR ex_turn)) by (unfold ex_turn; cbn [tR]; split; [la_ring | unfold det; cbn; ring]).
  assert (H1 : rep_tf (A := exA) bval (1 / 1000) ex_screw ex_turn).
  { unfold rep_tf, mval, vval, ex_screw, b_int3. cbn [gR gp ex_turn tR tp w0 w1 w2]. b_int. split; [exact S0|]. split; [|reflexivity].
    replace (msub _ _) with (mconst 0) by (unfold mconst; la_ring). pose proof (frob_mconst 0). lra. }
  assert (H2 : rep_tf (A := exA) bval (1 / 1000) ex_screw' ex_turn).
  { unfold rep_tf, mval, vval, ex_screw', b_int3. cbn [gR gp ex_turn tR tp w0 w1 w2]. b_int.
    replace (bval (b_lit 1 1024)) with (1 / 1024) by (vm_compute; lra). split; [exact S0|]. split; [|reflexivity].
    unfold frob. apply Rle_trans with (sqrt (/ 1000 * / 1000)); [apply sqrt_le_1_alt; la_unfold; cbn; lra|].
    rewrite sqrt_square by lra. lra. }
  split; [repeat (apply Forall2_cons || apply Forall2_nil); assumption|]. split; [vm_compute; reflexivity | cbn; lra].
Qed.

(* ================= C78 ================= *)
(** Robot accepts axes whose length differs from 1 by up to 1.001e-5. *)
Lemma accepted_axis h : Rabs (norm h - 1) <= 1001 / 100000000 -> rep_axis (A := real_arith) rval (1001 / 100000000) (emb_v h) (vdiv h (norm h)).
Proof.
  intros H. assert (N : 0 < norm h) by (pose proof (Rle_abs (1 - norm h)); rewrite Rabs_minus_sym in H; lra).
  assert (Z : h <> vzero) by (intros ->; rewrite norm_vzero in N; lra).
  rewrite vdiv_dir. pose proof (dir_unit h Z) as U. split; [exact U|]. rewrite vval_emb.
  assert (E : vsub h (dir h) = vscale (norm h - 1) (dir h)).
  { rewrite <- (dir_scale h Z) at 1. generalize (norm h) (dir h). intros x y. la_ring. }
  rewrite E, norm_vscale, (norm_unit _ U), Rmult_1_r. exact H.
Qed.
Lemma rep_num_refl l : Forall2 (rep_num (A := real_arith) rfin rval) l l.
Proof. induction l as [|x l IH]; constructor; [split; [exact I | reflexivity] | exact IH]. Qed.
Lemma rep_tf_refl T d : 0 <= d -> is_SO3 (tR T) -> rep_tf (A := real_arith) rval d (emb_t T) T.
Proof.
  intros D S. split; [exact S|]. unfold emb_t. cbn [gR gp]. rewrite mval_emb, vval_emb. split; [|reflexivity].
  replace (msub (tR T) (tR T)) with (mconst 0) by (unfold mconst; la_ring). pose proof (frob_mconst 0). lra.
Qed.
Lemma span_limit s r theta : 0 <= s -> span s r theta <= span 0 r theta + INR (length (rP r) + length (rtype r) + 3) * s.
Proof.
  intros S. unfold span. rewrite !plus_INR.
  assert (A : forall P, span_links s P <= span_links 0 P + INR (length P) * s).
  { induction P as [|p P IH]; cbn [span_links fold_right length]; [cbn; lra|]. rewrite S_INR. unfold span_links in IH. lra. }
  assert (B : forall ty th, span_joints s ty th <= span_joints 0 ty th + INR (length ty) * s).
  { induction ty as [|j ty IH]; intros th; cbn [length]; [cbn; lra|]. rewrite S_INR. destruct th as [|t th].
    - assert (0 <= INR (length ty)) by apply pos_INR. cbn [span_joints]. destruct j; nra.
    - specialize (IH th). destruct j; cbn [span_joints]; lra. }
  assert (C : forall o, span_tf s o <= span_tf 0 o + s) by (intros [T|]; cbn [span_tf]; lra).
  pose proof (A (rP r)). pose proof (B (rtype r) theta). pose proof (C (rflange r)). pose proof (C (tool_transform r)). pose proof (C (rbase r)).
  replace (INR 3) with 3 by (cbn; lra). lra.
Qed.
Lemma le_of_eps a b m : 0 <= m -> (forall s, 0 < s <= 1 -> a <= b + m * s) -> a <= b.
Proof.
  intros M H. apply Rnot_lt_le. intros L. set (t := (a - b) / (2 * (m + 1 + (a - b)))).
  assert (D : 0 < 2 * (m + 1 + (a - b))) by lra.
  assert (T : t * (2 * (m + 1 + (a - b))) = a - b) by (unfold t; field; lra).
  assert (T0 : 0 < t) by (apply Rmult_lt_reg_r with (2 * (m + 1 + (a - b))); lra).
  assert (T1 : t <= 1) by (apply Rmult_le_reg_r with (2 * (m + 1 + (a - b))); lra).
  specialize (H t (conj T0 T1)). nra.
Qed.

(** Every robot the constructor accepts moves like the robot whose axes have exactly length one, up to a factor
    1.0001001 for each joint and for the flange, the tool and the base; the bound on the position scales with
    the extent of the robot. *)
Theorem C78_nearly_unit_axes : forall a r theta ignore T,
  rectangular (aH a) -> rectangular (aP a) -> Robot_init a = Ok r ->
  (forall Q, rRtool r = Some Q -> is_SO3 Q) -> rigid_opt (rflange r) -> rigid_opt (rbase r) ->
  fwdkin r theta ignore = Ok T ->
  exists T', fwdkin (unit_axes r) theta ignore = Ok T' /\
    let err := (1 + 1001 / 10000000) ^ (length (rtype r) + 3) - 1 in
    frob (msub (tR T) (tR T')) <= err /\ norm (vsub (tp T) (tp T')) <= err * span 0 r theta.
Proof.
  intros a r theta ignore T RH RP E Ht Hf Hb EF.
  assert (U : Forall (fun h => Rabs (norm h - 1) <= 1001 / 100000000) (rH r)).
  { destruct (Robot_init_cases a RH RP) as [[V _]|[_ E']]; [|congruence]. pose proof (va_unit _ V) as VU.
    destruct (Robot_init_stored a r E) as [EH _]. rewrite <- EH in VU. rewrite Forall_map in VU.
    eapply Forall_impl; [|exact VU]. intros h Hh. cbv beta in Hh. cbn [fold_right] in Hh.
    replace (norm h) with (sqrt (vx h * vx h + (vy h * vy h + (vz h * vz h + 0)))); [lra|].
    rewrite Rplus_0_r, <- Rplus_assoc. reflexivity. }
  set (d := 1001 / 100000000) in *. assert (D : 0 <= d <= 1 / 10) by (unfold d; lra).
  assert (HR : represents (A := real_arith) rfin rval d (emb_robot r) (unit_axes r)).
  { split; cbn [emb_robot unit_axes grtype grH grP grlower grupper grtool grflange grbase rtype rH rP rlower rupper rflange rbase].
    - reflexivity.
    - clear - U. induction U as [|h H HU _ IH]; cbn [map]; constructor; [apply accepted_axis; exact HU | exact IH].
    - induction (rP r) as [|p P IH]; cbn [map]; [reflexivity|]. rewrite IH, vval_emb. reflexivity.
    - destruct (rlower r); [apply rep_num_refl | exact I].
    - destruct (rupper r); [apply rep_num_refl | exact I].
    - change (tool_transform (unit_axes r)) with (tool_transform r). unfold tool_transform.
      destruct (rRtool r) as [Q|]; [|exact I]. destruct (rptool r) as [q|]; [|exact I]. apply rep_tf_refl; [lra | apply Ht; reflexivity].
    - destruct (rflange r) as [F|]; [apply rep_tf_refl; [lra | exact Hf] | exact I].
    - destruct (rbase r) as [F|]; [apply rep_tf_refl; [lra | exact Hb] | exact I]. }
  assert (EG : g_fwdkin real_arith (emb_robot r) theta ignore = Ok (emb_t T)) by (rewrite real_fwdkin, EF; reflexivity).
  assert (FT : Forall rfin theta) by (apply Forall_forall; intros; exact I).
  assert (FF : tfin (A := real_arith) rfin (emb_t T)) by (unfold tfin, mfin, vfin, rfin; tauto).
  assert (MT : map rval theta = theta) by apply map_id.
  set (K := (1 + 10 * d) ^ (length (rtype r) + 3)).
  assert (G : forall s, 0 < s <= 1 -> exists T', fwdkin (unit_axes r) theta ignore = Ok T' /\
    frob (msub (tR T) (tR T')) <= K - 1 /\ norm (vsub (tp T) (tp T')) <= (K - 1) * span s r theta).
  { intros s Hs. destruct (fwdkin_rounding real_arith rfin rval 0 0 0 0 d 0 (10 * d) s real_sound ltac:(lra) ltac:(lra) Hs ltac:(lra)
      (real_rot_err d (proj2 D)) ltac:(lra) _ _ _ _ _ HR FT EG FF) as (T' & E1 & (C1 & _) & (C2 & _) & _).
    rewrite MT in E1, C2. exists T'. split; [exact E1|].
    assert (EK : ((1 + 10 * d) * (1 + 0) ^ 4) ^ length (rtype (unit_axes r)) * ((1 + 10 * d) * (1 + 0) ^ 2) ^ 3 = K).
    { unfold K. cbn [unit_axes rtype]. rewrite pow_add. replace ((1 + 10 * d) * (1 + 0) ^ 4) with (1 + 10 * d) by ring.
      replace ((1 + 10 * d) * (1 + 0) ^ 2) with (1 + 10 * d) by ring. reflexivity. }
    rewrite EK in C1, C2. unfold emb_t in C1, C2. cbn [gR gp] in C1, C2. rewrite mval_emb in C1. rewrite vval_emb in C2.
    split; [exact C1 | exact C2]. }
  destruct (G 1 ltac:(lra)) as (T' & E1 & C1 & _). exists T'. split; [exact E1|]. cbv zeta.
  replace (1 + 1001 / 10000000) with (1 + 10 * d) by (unfold d; lra). fold K. split; [exact C1|].
  assert (K0 : 0 <= K - 1) by (pose proof (frob_nonneg (msub (tR T) (tR T'))); lra).
  set (m := INR (length (rP r) + length (rtype r) + 3)). assert (M0 : 0 <= m) by apply pos_INR.
  apply le_of_eps with ((K - 1) * m); [apply Rmult_le_pos; assumption|]. intros s Hs.
  destruct (G s Hs) as (T2 & E2 & _ & C2). assert (T2 = T') by congruence. subst T2.
  eapply Rle_trans; [exact C2|]. pose proof (span_limit s r theta ltac:(lra)) as L. fold m in L.
  pose proof (Rmult_le_compat_l _ _ _ K0 L). lra.
Qed.
(** In numbers: 0.00021 for each joint. *)
Theorem C78_linear : forall n, (n <= 4000)%nat -> (1 + 1001 / 10000000) ^ (n + 3) - 1 <= 21 / 100000 * INR (n + 3).
Proof.
  intros n H. assert (L : INR (n + 3) <= 4003) by (replace 4003 with (INR 4003) by (rewrite INR_IZR_INZ; reflexivity); apply le_INR; lia).
  pose proof (pos_INR (n + 3)). pose proof (pow_close (1001 / 10000000) (n + 3) ltac:(lra) ltac:(lra)). lra.
Qed.
(** An accepted robot whose axis is too long by 1/200000. *)
Definition long_args : robot_args :=
  Ra (Cols 3 [[0;0;1 + 1/200000]]) (Cols 3 [[0;0;1]; [1;0;0]]) [0]%Z None None None None None None None None None None None None.
Example C78_ex : exists r T, rectangular (aH long_args) /\ rectangular (aP long_args) /\ Robot_init long_args = Ok r /\
  ~ Forall unit3 (rH r) /\ rflange r = None /\ rbase r = None /\ rRtool r = None /\ fwdkin r [PI] false = Ok T /\ ~ is_SO3 (tR T).
Proof.
  assert (RH : rectangular (aH long_args)) by repeat constructor.
  assert (RP : rectangular (aP long_args)) by repeat constructor.
  assert (E : Robot_init long_args = Ok (Rb [V3 0 0 (1 + 1/200000)] [V3 0 0 1; V3 1 0 0] [Rotary] None None None None None None None None None None None None)).
  { unfold Robot_init. cbn [long_args aH columns forallb aP nrows].
    replace (isclose (1 / 100000) (1 / 100000000) (norm_l [0; 0; 1 + 1 / 200000]) 1) with true; [reflexivity|].
    symmetry. apply isclose_iff. unfold np_close, norm_l. cbn [fold_right]. rewrite Rabs_R1.
    replace (0 * 0 + (0 * 0 + ((1 + 1 / 200000) * (1 + 1 / 200000) + 0))) with ((1 + 1 / 200000) * (1 + 1 / 200000)) by ring.
    rewrite sqrt_square by lra. replace (1 + 1 / 200000 - 1) with (1 / 200000) by ring. rewrite Rabs_right by lra. lra. }
  eexists. eexists. split; [exact RH|]. split; [exact RP|]. split; [exact E|]. cbn [rH rflange rbase rRtool].
  split; [intros F; inversion F as [|? ? K]; subst; unfold unit3, dot in K; cbn in K; lra|].
  split; [reflexivity|]. split; [reflexivity|]. split; [reflexivity|]. split; [reflexivity|].
  cbn [tR fst]. intros [_ K]. revert K. unfold rot. rewrite sin_PI, cos_PI. la_unfold. cbn. lra.
Qed.
Print Assumptions C76_binary64.
Print Assumptions C77_binary64.
Print Assumptions C78_nearly_unit_axes.
