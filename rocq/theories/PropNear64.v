(** Property C115: with last_joints, the inverse kinematics programs list their solutions nearest first in binary64. *)
From Coq Require Import Reals ZArith List Bool Lra Lia Psatz Permutation.
From Flocq Require Import Core.Core IEEE754.BinarySingleNaN.
From Verif Require Import LinAlg RealAux Py FactsReal FactsLinAlg ModelRot SpecRot FactsRot FactsNorm SpecSub FactsSub ModelFloat ModelFloat2 ModelFloat3 ModelFloat6 ModelFloat9 ModelFloat10 ModelFloat11 ModelFloat12 SpecRound FactsRound FactsB64 FactsExact FactsTrack SpecArc SpecSub4 SpecReach SpecRpy FactsRpy FactsIk64 FactsPath64 FactsJoint64 FactsArm64 FactsWrist64 ModelTransform ModelRobot ModelKin SpecKin SpecInvkin FactsKin SpecArc2 SpecRobot64 FactsRobot64 FactsUr64 ModelInvkin SpecFind SpecNear64 FactsDist64.
From Verif Require PropNorm.
From Verif Require Import PropFloat PropPi PropIterEnd PropAngle PropRobot64 PropUr64 PropFind64 PropUrFind64 PropTrack64.
Import ListNotations.
Open Scope R_scope.

(** limits of up to 1024 rad for every joint *)
Definition limited (n : nat) (lower upper : option (list b64)) : Prop :=
  exists ls us, lower = Some ls /\ upper = Some us /\ forall i, (i < n)%nat -> exists l u : b64, nth_error ls i = Some l /\ nth_error us i = Some u /\ sane l /\ sane u.

Lemma nth_lt {T} (l : list T) i y n : length l = n -> nth_error l i = Some y -> (i < n)%nat.
Proof. intros <- N. apply nth_error_Some. rewrite N. discriminate. Qed.
Lemma robot6_sane L (f : b64 -> b64) bdot argsort (rf : grobot (b64_arith L bdot)) posef lastf sols x : length (grH rf) = 6%nat -> length (grP rf) = 7%nat -> limited 6 (grlower rf) (grupper rf) ->
  g_robot6_invkin (b64_arith L bdot) f b_rem argsort rf posef lastf = Ok sols -> In x sols -> length x = 6%nat /\ Forall sane x.
Proof.
  intros LH LP (ls & us & EL & EU & LI) E I. pose proof (C108_six _ _ _ _ _ _ _ _ x LH LP E I) as L6. split; [exact L6|].
  apply Forall_forall. intros y IY. apply In_nth_error in IY. destruct IY as (i & NY). pose proof (nth_lt _ _ _ _ L6 NY) as I6.
  destruct (LI i I6) as (l & u & NL & NU & [FL BL] & [FU BU]). destruct (C108_limits L f bdot argsort rf posef lastf sols x ls us i l u y LH LP EL EU NL NU FL FU E I NY) as [FY BY].
  split; [exact FY|]. apply Rabs_le_inv in BL, BU. apply Rabs_le. lra.
Qed.

(** robot6_sphericalwrist_invkin, for any math library *)
Theorem C115_sorted : forall L (f : b64 -> b64) bdot argsort (rf : grobot (b64_arith L bdot)) posef last sols, In bdot b_dots -> sorts_keys argsort -> length (grH rf) = 6%nat -> length (grP rf) = 7%nat ->
  limited 6 (grlower rf) (grupper rf) -> length last = 6%nat -> Forall sane last -> g_robot6_invkin (b64_arith L bdot) f b_rem argsort rf posef (Some last) = Ok sols -> nearest_first last sols.
Proof.
  intros L f bdot argsort rf posef last sols HD SO LH LP LI LL HL E. pose proof (fun x => robot6_sane L f bdot argsort rf posef (Some last) sols x LH LP LI E) as SX.
  unfold g_robot6_invkin, g_robot6_solve in E. cbv zeta in E. repeat (apply bind_inv in E; destruct E as (? & _ & E)).
  apply (sort_first L bdot argsort last _ sols HD SO ltac:(lia) HL E). intros s I. destruct (SX s I) as [A B]. split; [exact (eq_trans A (eq_sym LL))|exact B].
Qed.
Print Assumptions C115_sorted.
(** ur_invkin, whose fifth joint is not held to the limits *)
Theorem C115_ur_sorted : forall L (f : b64 -> b64) bdot argsort (rf : grobot (b64_arith L bdot)) posef last sols, In bdot b_dots -> sorts_keys argsort -> length (grH rf) = 6%nat -> length (grP rf) = 7%nat ->
  limited 6 (grlower rf) (grupper rf) -> length last = 6%nat -> Forall sane last -> g_ur_invkin (b64_arith L bdot) f b_rem argsort rf posef (Some last) = Ok sols ->
  (forall x y, In x sols -> nth_error x 4 = Some y -> sane y) -> nearest_first last sols.
Proof.
  intros L f bdot argsort rf posef last sols HD SO LH LP (ls & us & EL & EU & LI) LL HL E FI.
  assert (SX : forall x, In x sols -> length x = 6%nat /\ Forall sane x).
  { intros x I. pose proof (C109_six _ _ _ _ _ _ _ _ x LH LP E I) as L6. split; [exact L6|].
    apply Forall_forall. intros y IY. apply In_nth_error in IY. destruct IY as (i & NY). pose proof (nth_lt _ _ _ _ L6 NY) as I6.
    destruct (Nat.eq_dec i 4) as [-> | N4]; [exact (FI x y I NY)|].
    destruct (LI i I6) as (l & u & NL & NU & [FL BL] & [FU BU]). destruct (C109_limits L f bdot argsort rf posef (Some last) sols x ls us i l u y LH LP EL EU NL NU FL FU N4 E I NY) as [FY BY].
    split; [exact FY|]. apply Rabs_le_inv in BL, BU. apply Rabs_le. lra. }
  unfold g_ur_invkin in E. cbv zeta in E. repeat (apply bind_inv in E; destruct E as (? & _ & E)).
  apply (sort_first L bdot argsort last _ sols HD SO ltac:(lia) HL E). intros s I. destruct (SX s I) as [A B]. split; [exact (eq_trans A (eq_sym LL))|exact B].
Qed.
Print Assumptions C115_ur_sorted.

(* ---- with C114: the first vector against the nearby solution ---- *)
Lemma reach2_nonneg e : forall q last, 0 <= reach2 e q last.
Proof. induction e as [|d e IH]; intros [|a q] [|l last]; cbn [reach2]; try lra. pose proof (IH q last). pose proof (pow2_ge_0 (Rabs (a - bval l) + d)). lra. Qed.
Lemma dist_reach : forall e q x last, length x = length q -> length e = length q ->
  (forall i y a d, nth_error x i = Some y -> nth_error q i = Some a -> nth_error e i = Some d -> Rabs (bval y - a) <= d) -> dist2 x last <= reach2 e q last.
Proof.
  induction e as [|d e IH]; intros [|a q] [|y x] last LX LE H; try discriminate; [right; reflexivity|]. destruct last as [|l last]; [right; reflexivity|].
  cbn [reach2]. unfold dist2. cbn [combine fold_right fst snd]. fold (dist2 x last).
  pose proof (IH q x last ltac:(cbn in LX; lia) ltac:(cbn in LE; lia) (fun i => H (S i))) as R. pose proof (H 0%nat y a d eq_refl eq_refl eq_refl) as B.
  assert ((bval y - bval l) ^ 2 <= (Rabs (a - bval l) + d) ^ 2).
  { rewrite <- (pow2_abs (bval y - bval l)). apply pow_incr. split; [apply Rabs_pos|]. replace (bval y - bval l) with ((a - bval l) + (bval y - a)) by ring. eapply Rle_trans; [apply Rabs_triang|]. lra. }
  lra.
Qed.
Theorem C115_first : forall L (f : b64 -> b64) bdot argsort rf r posef pose last sols a1 a2 a3 a4 a5 a6 M rho w h0 h1 h2 h3 h4 h5 p0 p1 p2 p3 p4 p5 p6 R06 v,
  In bdot b_dots -> libm_ok L (bpow radix2 (-52)) -> libm_total L -> libm_arc_ok L (bpow radix2 (-50)) -> libm_angle_ok L (bpow radix2 (-50)) -> libm_asin_ok f (bpow radix2 (-50)) ->
  opw r h0 h1 h2 h3 h4 h5 p0 p1 p2 p3 p4 p5 p6 -> wf_aux r -> stored_robot L bdot M rf r -> stored_pose L bdot M posef pose ->
  1 <= M <= bpow radix2 150 -> 1002 / 1000 * extent r pose <= M -> 1 <= rho -> 1 <= w -> rho * w <= 31 ->
  g_robot6_invkin (b64_arith L bdot) f b_rem argsort rf posef (Some last) = Ok sols ->
  (forall u, robot_point r [a1; a2; a3; a4; a5; a6] u = act pose u) -> Forall (fun a => Rabs a <= 4) [a1; a2; a3; a4; a5; a6] ->
  (forall ls us, grlower rf = Some ls -> grupper rf = Some us -> clear_of ls us (bpow radix2 (-13) * (rho * rho) * (w * w)) [a1; a2; a3; a4; a5; a6]) ->
  sorts_keys argsort -> limited 6 (grlower rf) (grupper rf) -> length last = 6%nat -> near_last last [a1; a2; a3; a4; a5; a6] ->
  wrist_of r pose (vadd p6 p5) R06 v -> M <= rho * Rabs (turn_rate ey v (vneg h0) a1) -> M * M <= rho * Rabs (reach_rate h2 (vadd p3 p4) p2 a3) ->
  M <= rho * norm (perp ey (vadd p2 (rotate h2 a3 (vadd p3 p4)))) -> 1 <= w * Rabs (sin a5) ->
  exists x rest, sols = x :: rest /\ joint_dist x last <= (1 + bpow radix2 (-44)) * reach_dist [bpow radix2 (-38) * rho; bpow radix2 (-20) * (rho * rho); bpow radix2 (-21) * rho; bpow radix2 (-15) * (rho * rho) * (w * w); bpow radix2 (-16) * (rho * rho) * w; bpow radix2 (-13) * (rho * rho) * (w * w)] [a1; a2; a3; a4; a5; a6] last + bpow radix2 (-440).
Proof.
  intros L f bdot argsort rf r posef pose last sols a1 a2 a3 a4 a5 a6 M rho w h0 h1 h2 h3 h4 h5 p0 p1 p2 p3 p4 p5 p6 R06 v HD HL HT HA HG HF O W SR SP RM EX R1 W1 RW E SOL B4 CL SO LI LL NL WO T1 T2 T3 T4.
  destruct (C114_tracks L f bdot argsort rf r posef pose last sols a1 a2 a3 a4 a5 a6 M rho w h0 h1 h2 h3 h4 h5 p0 p1 p2 p3 p4 p5 p6 R06 v HD HL HT HA HG HF O W SR SP RM EX R1 W1 RW E SOL B4 CL (fun l => proj1 (SO l)) NL WO T1 T2 T3 T4) as (x & IX & LX & CX).
  set (e := [bpow radix2 (-38) * rho; _; _; _; _; _]) in *.
  assert (HLA : Forall sane last).
  { apply Forall_forall. intros y IY. apply In_nth_error in IY. destruct IY as (i & NY). pose proof (nth_lt _ _ _ _ LL NY) as I6.
    destruct (nth_error [a1; a2; a3; a4; a5; a6] i) as [a|] eqn:NA; [|apply nth_error_None in NA; cbn in NA; lia]. destruct (NL i a NA) as (lj & NJ & FJ & BJ). rewrite NY in NJ. assert (y = lj) as -> by (injection NJ; auto).
    split; [exact FJ|]. pose proof (proj1 (Forall_forall _ _) B4 a (nth_error_In _ _ NA)) as BA. cbn beta in BA. apply Rabs_le_inv in BA, BJ. apply Rabs_le. lra. }
  pose proof (sr_H _ _ _ _ _ SR) as SH. pose proof (sr_P _ _ _ _ _ SR) as SPP. rewrite (opw_H _ _ _ _ _ _ _ _ _ _ _ _ _ _ O) in SH. rewrite (opw_P _ _ _ _ _ _ _ _ _ _ _ _ _ _ O) in SPP.
  assert (LEN : forall (T U : Type) (P : T -> U -> Prop) l l', Forall2 P l l' -> length l = length l') by (intros T U P l l' F2; induction F2; cbn; congruence).
  assert (LH : length (grH rf) = 6%nat) by exact (LEN _ _ _ _ _ SH). assert (LP : length (grP rf) = 7%nat) by exact (LEN _ _ _ _ _ SPP).
  pose proof (C115_sorted L f bdot argsort rf posef last sols HD SO LH LP LI LL HLA E) as NF.
  assert (DR : joint_dist x last <= reach_dist e [a1; a2; a3; a4; a5; a6] last) by (apply sqrt_le_1_alt, (dist_reach e _ x last LX eq_refl CX)).
  assert (R0 : 0 <= reach_dist e [a1; a2; a3; a4; a5; a6] last) by apply sqrt_pos. set (rd := reach_dist _ _ _) in *.
  pose proof (bpow_gt_0 radix2 (-44)) as G4. pose proof (bpow_gt_0 radix2 (-440)) as G40.
  assert (DD : joint_dist x last <= (1 + bpow radix2 (-44)) * rd) by (assert (0 <= bpow radix2 (-44) * rd) by (apply Rmult_le_pos; lra); lra).
  apply In_nth_error in IX. destruct IX as (j & NJ). destruct sols as [|s rest]; [destruct j; discriminate NJ|]. exists s, rest. split; [reflexivity|].
  destruct j as [|j]; [injection NJ as <-; lra|]. pose proof (NF 0%nat (S j) s x ltac:(lia) eq_refl NJ) as N1.
  assert ((1 + bpow radix2 (-44)) * joint_dist x last <= (1 + bpow radix2 (-44)) * rd) by (apply Rmult_le_compat_l; lra). lra.
Qed.
Print Assumptions C115_first.

(* ---- a sorting function: insertion into a list of (key, index), whatever is not finite at the end ---- *)
Definition key_le (x y : b64) : bool := if is_finite x then (if is_finite y then b_le x y else true) else negb (is_finite y).
Fixpoint put (p : b64 * nat) (l : list (b64 * nat)) : list (b64 * nat) :=
  match l with
  | [] => [p]
  | q :: l' => if key_le (fst p) (fst q) then p :: l else q :: put p l'
  end.
Definition in_order (l : list b64) : list nat := map snd (fold_right put [] (combine l (seq 0 (length l)))).
Lemma le_val x y : bfin x -> bfin y -> (b_le x y = true <-> bval x <= bval y).
Proof.
  intros Fx Fy. unfold b_le. rewrite (Bcompare_correct 53 1024 x y Fx Fy). fold (bval x). fold (bval y).
  destruct (Rcompare_spec (bval x) (bval y)); split; intros; try discriminate; try reflexivity; lra.
Qed.
Lemma key_total x y : key_le x y = false -> key_le y x = true.
Proof.
  unfold key_le. destruct (is_finite x) eqn:Fx, (is_finite y) eqn:Fy; try (cbn; congruence). intros H. apply (proj2 (le_val y x Fy Fx)).
  destruct (Rle_or_lt (bval y) (bval x)) as [?|C]; [assumption|]. assert (b_le x y = true) by (apply (proj2 (le_val x y Fx Fy)); lra). congruence.
Qed.
Lemma key_trans x y z : key_le x y = true -> key_le y z = true -> key_le x z = true.
Proof.
  unfold key_le. destruct (is_finite x) eqn:Fx, (is_finite y) eqn:Fy, (is_finite z) eqn:Fz; try (cbn; congruence). intros H K.
  apply (proj1 (le_val x y Fx Fy)) in H. apply (proj1 (le_val y z Fy Fz)) in K. apply (proj2 (le_val x z Fx Fz)). lra.
Qed.
Fixpoint ordered (l : list (b64 * nat)) : Prop := match l with [] => True | p :: l' => (forall q, In q l' -> key_le (fst p) (fst q) = true) /\ ordered l' end.
Lemma put_perm p l : Permutation (put p l) (p :: l).
Proof. induction l as [|q l IH]; [apply Permutation_refl|]. cbn [put]. destruct (key_le (fst p) (fst q)); [apply Permutation_refl|]. eapply Permutation_trans; [apply perm_skip, IH|apply perm_swap]. Qed.
Lemma put_ordered p l : ordered l -> ordered (put p l).
Proof.
  induction l as [|q l IH]; intros O; [split; [intros ? []|exact I]|]. cbn [put]. destruct O as [H O]. destruct (key_le (fst p) (fst q)) eqn:K.
  - split; [|split; assumption]. intros r [<- | IR]; [exact K|]. exact (key_trans _ _ _ K (H r IR)).
  - split; [|exact (IH O)]. intros r IR. apply (Permutation_in r (put_perm p l)) in IR. destruct IR as [<- | IR]; [exact (key_total _ _ K)|exact (H r IR)].
Qed.
Lemma puts_perm l : Permutation (fold_right put [] l) l.
Proof. induction l as [|p l IH]; [constructor|]. cbn [fold_right]. eapply Permutation_trans; [apply put_perm|apply perm_skip, IH]. Qed.
Lemma puts_ordered l : ordered (fold_right put [] l).
Proof. induction l as [|p l IH]; [exact I|]. cbn [fold_right]. apply put_ordered, IH. Qed.
Lemma ordered_nth l : ordered l -> forall i j p q, (i < j)%nat -> nth_error l i = Some p -> nth_error l j = Some q -> key_le (fst p) (fst q) = true.
Proof.
  induction l as [|r l IH]; intros O i j p q IJ NP NQ; [destruct i; discriminate NP|]. destruct O as [H O]. destruct j as [|j]; [lia|]. destruct i as [|i].
  - assert (r = p) as <- by (cbn in NP; congruence). apply H, (nth_error_In l j). exact NQ.
  - exact (IH O i j p q ltac:(lia) NP NQ).
Qed.
Lemma tagged (l : list b64) : forall n x i, In (x, i) (combine l (seq n (length l))) -> (n <= i)%nat /\ nth_error l (i - n) = Some x.
Proof.
  induction l as [|y l IH]; intros n x i I; [destruct I|]. cbn [length seq combine] in I. destruct I as [I|I]; [assert (y = x) as <- by exact (f_equal fst I); assert (n = i) as <- by exact (f_equal snd I); split; [lia|]; rewrite Nat.sub_diag; reflexivity|].
  destruct (IH (S n) x i I) as [LE N]. split; [lia|]. replace (i - n)%nat with (S (i - S n)) by lia. exact N.
Qed.
Lemma in_order_sorts : sorts_keys in_order.
Proof.
  intros l. unfold in_order. set (t := combine l (seq 0 (length l))). pose proof (puts_perm t) as P. split.
  - eapply Permutation_trans; [apply Permutation_map, P|]. unfold t. clear. generalize 0%nat. induction l as [|x l IH]; intros n; [constructor|]. cbn. apply perm_skip, IH.
  - intros i j a b x y IJ NA NB XA YB FX FY. rewrite nth_error_map in NA, NB.
    destruct (nth_error (fold_right put [] t) i) as [[x' a']|] eqn:EA; [|discriminate NA]. destruct (nth_error (fold_right put [] t) j) as [[y' b']|] eqn:EB; [|discriminate NB].
    assert (a' = a) as -> by (cbn in NA; congruence). assert (b' = b) as -> by (cbn in NB; congruence).
    pose proof (ordered_nth _ (puts_ordered t) i j _ _ IJ EA EB) as K. cbn [fst] in K.
    destruct (tagged l 0 x' a (Permutation_in _ P (nth_error_In _ _ EA))) as [_ N1]. destruct (tagged l 0 y' b (Permutation_in _ P (nth_error_In _ _ EB))) as [_ N2]. rewrite Nat.sub_0_r in N1, N2.
    assert (x' = x) as -> by (rewrite XA in N1; injection N1; auto). assert (y' = y) as -> by (rewrite YB in N2; injection N2; auto).
    unfold key_le in K. unfold bfin in FX, FY. rewrite FX, FY in K. exact (proj1 (le_val x y FX FY) K).
Qed.

(* ---- two solutions: the robot of C111_ex with limits that allow both positions of the wrist, last_joints (0, 0, 0, 2, 0, 2) ---- *)
(** a math library for a few angles; C115_sorted asks nothing of it *)
Definition coarse (x y : b64) : bool := b_lt (Babs (b_sub x y)) (b_lit 1 1000000).
Definition few_libm : libm :=
  Libm (fun x => if coarse (Babs x) b_zero then b_zero else if coarse x b_half then b_ofZ 1 else if coarse x (Bopp b_half) then b_ofZ (-1) else if coarse (Babs x) b_pi then b_zero else B754_nan)
       (fun x => if coarse (Babs x) b_zero then b_ofZ 1 else if coarse (Babs x) b_half then b_zero else if coarse (Babs x) b_pi then b_ofZ (-1) else B754_nan)
       (fun x => if coarse x b_zero then b_half else if coarse x (b_ofZ 1) then b_zero else if coarse x (b_ofZ (-1)) then b_pi else B754_nan)
       (fun y x => if coarse y b_zero then (if b_lt x b_zero then b_pi else b_zero) else if coarse x b_zero then (if b_lt b_zero y then b_half else Bopp b_half) else
                   if coarse y x then b_quarter else B754_nan).
Definition two_last : list b64 := map b_ofZ [0; 0; 0; 2; 0; 2]%Z.
Section Two.
Context (bdot : list b64 -> list b64 -> b64).
Notation A := (b64_arith few_libm bdot).
Definition two_rf : grobot A :=
  GRb A [b_int3 0 0 1; b_int3 0 1 0; b_int3 0 1 0; b_int3 1 0 0; b_int3 0 1 0; b_int3 1 0 0]
    [b_int3 0 0 1; b_int3 1 0 1; b_int3 0 0 3; b_int3 2 0 0; b_int3 2 0 0; b_int3 1 0 0; b_int3 0 0 1]
    [Rotary; Rotary; Rotary; Rotary; Rotary; Rotary] (Some (map b_ofZ [-1;-1;-1;-4;-2;-4]%Z)) (Some (map b_ofZ [1;1;1;4;2;4]%Z))
    (Some (@GT A b_eye (b_int3 0 0 1))) None None.
Definition two_pose : gtf A := @GT A (ModelFloat.W3 (b_int3 0 0 1) (b_int3 0 1 0) (b_int3 (-1) 0 0)) (b_int3 7 0 4).
Definition two_run : out (list (list b64)) := g_robot6_invkin A pin_asin b_rem in_order two_rf two_pose (Some two_last).
End Two.
Definition two_test (o : out (list (list b64))) : bool :=
  match o with Ok [[_; _; _; d; e; _]; [_; _; _; d'; e'; _]] => (is_num d b_pi && is_num e (Bopp b_half) && is_num d' b_zero && is_num e' b_half)%bool | _ => false end.
Lemma two_runs bdot : In bdot b_dots -> two_test (two_run bdot) = true.
Proof. intros H. cbn [In b_dots] in H. repeat (destruct H as [<- | H]; [vm_compute; reflexivity|]). contradiction. Qed.
Lemma int_sane z : (-8 <= z <= 8)%Z -> sane (b_ofZ z).
Proof. intros H. destruct (pin_int z H) as [F V]. split; [exact F|]. rewrite V. apply Rabs_le. split; [apply (IZR_le (-1024))|apply (IZR_le _ 1024)]; lia. Qed.
Lemma ints_limited (a b : list Z) : length a = 6%nat -> length b = 6%nat -> Forall (fun z => (-8 <= z <= 8)%Z) a -> Forall (fun z => (-8 <= z <= 8)%Z) b -> limited 6 (Some (map b_ofZ a)) (Some (map b_ofZ b)).
Proof.
  intros LA LB HA HB. exists (map b_ofZ a), (map b_ofZ b). split; [reflexivity|]. split; [reflexivity|]. intros i I6.
  destruct (nth_error a i) as [x|] eqn:NA; [|apply nth_error_None in NA; lia]. destruct (nth_error b i) as [y|] eqn:NB; [|apply nth_error_None in NB; lia].
  exists (b_ofZ x), (b_ofZ y). rewrite !nth_error_map, NA, NB. split; [reflexivity|]. split; [reflexivity|].
  split; apply int_sane; [exact (proj1 (Forall_forall _ _) HA x (nth_error_In _ _ NA))|exact (proj1 (Forall_forall _ _) HB y (nth_error_In _ _ NB))].
Qed.
Example C115_ex : forall bdot, In bdot b_dots -> exists x y, two_run bdot = Ok [x; y] /\ two_test (Ok [x; y]) = true /\ joint_dist x two_last <= (1 + bpow radix2 (-44)) * joint_dist y two_last + bpow radix2 (-440).
Proof.
  intros bdot HD. pose proof (two_runs bdot HD) as T. destruct (two_run bdot) as [sols|] eqn:E; [|discriminate T].
  assert (S2 : exists x y, sols = [x; y]) by (destruct sols as [|x [|y [|]]]; [discriminate T|destruct x as [|? [|? [|? [|? [|? [|? [|]]]]]]]; discriminate T|exists x, y; reflexivity|destruct x as [|? [|? [|? [|? [|? [|? [|]]]]]]]; try discriminate T; destruct y as [|? [|? [|? [|? [|? [|? [|]]]]]]]; discriminate T]).
  destruct S2 as (x & y & ->). exists x, y. split; [reflexivity|]. split; [exact T|].
  apply (C115_sorted few_libm pin_asin bdot in_order (two_rf bdot) (two_pose bdot) two_last [x; y] HD in_order_sorts eq_refl eq_refl) with (i := 0%nat) (j := 1%nat); try reflexivity; try lia; try exact E.
  - apply ints_limited; try reflexivity; repeat (constructor; [lia|]); constructor.
  - unfold two_last. repeat (constructor; [apply int_sane; lia|]). constructor.
Qed.
Print Assumptions C115_ex.
Definition fst_run bdot : out (list (list b64)) := g_robot6_invkin (b64_arith pin_libm bdot) pin_asin b_rem in_order (pin_rf bdot) (pin_pose bdot) (Some trk_last).
Lemma fst_runs bdot : In bdot b_dots -> pin_test (fst_run bdot) = true.
Proof. intros H. cbn [In b_dots] in H. repeat (destruct H as [<- | H]; [vm_compute; reflexivity|]). contradiction. Qed.
Example C115_first_ex : forall bdot, In bdot b_dots -> exists x rest, fst_run bdot = Ok (x :: rest) /\ (forall u, robot_point pin_r [0; 0; 0; 0; PI / 2; 0] u = act pin_goal u) /\
  joint_dist x trk_last <= (1 + bpow radix2 (-44)) * reach_dist [bpow radix2 (-38) * 24; bpow radix2 (-20) * (24 * 24); bpow radix2 (-21) * 24; bpow radix2 (-15) * (24 * 24) * (1 * 1); bpow radix2 (-16) * (24 * 24) * 1; bpow radix2 (-13) * (24 * 24) * (1 * 1)] [0; 0; 0; 0; PI / 2; 0] trk_last + bpow radix2 (-440).
Proof.
  intros bdot HD. pose proof (fst_runs bdot HD) as RT. destruct (fst_run bdot) as [sols|] eqn:E; [|discriminate RT]. clear RT.
  destruct pin_opw as [O W]. assert (R0 : forall k v, rotate k 0 v = v) by (intros; unfold rotate; rewrite sin_0, cos_0; la_ring).
  assert (LE : forall v n, 0 <= n -> n * n <= LinAlg.dot v v -> n <= norm v) by (intros v n P Q; unfold norm, norm2; rewrite <- (sqrt_square n P); apply sqrt_le_1_alt; exact Q).
  assert (GO : forall u, robot_point pin_r [0; 0; 0; 0; PI / 2; 0] u = act pin_goal u).
  { intros u. rewrite (FactsRobot6.opw_point _ _ _ _ _ _ _ _ _ _ _ _ _ _ _ _ _ _ _ _ _ O). cbv zeta. rewrite !rot_rotate by (unfold unit3, norm2, LinAlg.dot, ex, ey, ez; cbn; ring). rewrite !R0. unfold rotate. rewrite cos_PI2, sin_PI2.
    destruct u as [x y z]. unfold act, act_tool, pin_goal, pin_R06, ez, ex, ey. cbn. la_ring. }
  pose proof pi_hi as P4. pose proof PI2_3_2 as P3.
  destruct (C115_first pin_libm pin_asin bdot in_order (pin_rf bdot) pin_r (pin_pose bdot) pin_goal trk_last sols 0 0 0 0 (PI / 2) 0 24 24 1 ez ey ey ex ey ex ez (V3 1 0 1) (V3 0 0 3) (V3 2 0 0) (V3 2 0 0) ex ez pin_R06 (V3 5 0 5)
      HD pin_ok pin_total pin_arc pin_angle pin_asin_ok O W (pin_robot 24 bdot ltac:(lra)) (pin_posed 24 bdot ltac:(lra))) as (x & rest & SX & DX); try lra; try assumption.
  - split; [lra|]. apply Rle_trans with (bpow radix2 5); [cbn; lra|apply bpow_le; lia].
  - exact pin_extent.
  - repeat (constructor; [apply Rabs_le; lra|]). constructor.
  - intros ls us [= <-] [= <-] i a NA. assert (B13 : bpow radix2 (-13) * (24 * 24) * (1 * 1) <= 1 / 10) by (cbn; lra).
    assert (G : forall l u, nth_error [-1;-1;-1;-1;-2;-1]%Z i = Some l -> nth_error [1;1;1;1;2;1]%Z i = Some u -> (-8 <= l <= 8)%Z -> (-8 <= u <= 8)%Z -> IZR l + 1 / 10 <= a <= IZR u - 1 / 10 ->
      exists l u : b64, nth_error (map b_ofZ [-1;-1;-1;-1;-2;-1]%Z) i = Some l /\ nth_error (map b_ofZ [1;1;1;1;2;1]%Z) i = Some u /\ bfin l /\ bfin u /\ bval l + bpow radix2 (-13) * (24 * 24) * (1 * 1) <= a <= bval u - bpow radix2 (-13) * (24 * 24) * (1 * 1)).
    { intros l u NL NU RL RU BL. destruct (pin_int l RL) as [FL VL]. destruct (pin_int u RU) as [FU VU]. exists (b_ofZ l), (b_ofZ u). rewrite !nth_error_map, NL, NU. split; [reflexivity|]. split; [reflexivity|]. split; [exact FL|]. split; [exact FU|]. rewrite VL, VU. lra. }
    do 6 (destruct i as [|i]; [injection NA as <-; refine (G _ _ eq_refl eq_refl _ _ _); [lia|lia|lra]|]). destruct i; discriminate NA.
  - exact in_order_sorts.
  - apply ints_limited; try reflexivity; repeat (constructor; [lia|]); constructor.
  - reflexivity.
  - exact trk_near.
  - intros [x y z]. unfold act, point6, act_tool, pin_goal, pin_R06, ez, ex. cbn. la_ring.
  - unfold turn_rate. rewrite R0. assert (1 <= Rabs (LinAlg.dot ey (cross (vneg ez) (V3 5 0 5)))) by (unfold LinAlg.dot, cross, vneg, ey, ez; cbn; unfold Rabs; destruct Rcase_abs; lra). lra.
  - unfold reach_rate. rewrite R0. assert (24 <= Rabs (2 * LinAlg.dot (V3 0 0 3) (cross ey (vadd (V3 2 0 0) (V3 2 0 0))))) by (unfold LinAlg.dot, cross, vadd, ey; cbn; unfold Rabs; destruct Rcase_abs; lra). lra.
  - rewrite R0. assert (3 <= norm (perp ey (vadd (V3 0 0 3) (vadd (V3 2 0 0) (V3 2 0 0))))) by (apply LE; [lra|]; unfold perp, ey, vsub, vadd, vscale, LinAlg.dot; cbn [vx vy vz]; lra). lra.
  - rewrite sin_PI2, Rabs_R1. lra.
  - exists x, rest. rewrite SX. auto.
Qed.
Print Assumptions C115_first_ex.

(* ---- and the robot of C112_ex ---- *)
Section TwoUr.
Context (bdot : list b64 -> list b64 -> b64).
Notation A := (b64_arith few_libm bdot).
Definition twou_rf : grobot A :=
  GRb A [b_int3 0 0 1; b_int3 0 1 0; b_int3 0 1 0; b_int3 0 1 0; b_int3 0 0 (-1); b_int3 0 1 0]
    [b_int3 0 0 1; b_int3 0 1 0; b_int3 3 0 0; b_int3 0 0 4; b_int3 0 (-1) 0; b_int3 0 1 0; b_int3 1 0 0]
    [Rotary; Rotary; Rotary; Rotary; Rotary; Rotary] (Some (map b_ofZ [-1;-1;-1;-4;-1;-4]%Z)) (Some (map b_ofZ [1;1;1;4;1;4]%Z))
    (Some (@GT A b_eye (b_int3 0 0 1))) None None.
Definition twou_pose : gtf A := @GT A (ModelFloat.W3 (b_int3 0 1 0) (b_int3 (-1) 0 0) (b_int3 0 0 1)) (b_int3 4 (-1) 6).
Definition twou_run : out (list (list b64)) := g_ur_invkin A pin_asin b_rem in_order twou_rf twou_pose (Some two_last).
End TwoUr.
Lemma twou_runs bdot : In bdot b_dots -> two_test (twou_run bdot) = true.
Proof. intros H. cbn [In b_dots] in H. repeat (destruct H as [<- | H]; [vm_compute; reflexivity|]). contradiction. Qed.
Lemma two_shape sols : two_test (Ok sols) = true -> exists a b c d e f a' b' c' d' e' f', sols = [[a; b; c; d; e; f]; [a'; b'; c'; d'; e'; f']] /\ sane e /\ sane e'.
Proof.
  intros T. destruct sols as [|[|a [|b [|c [|d [|e [|f [|]]]]]]] [|[|a' [|b' [|c' [|d' [|e' [|f' [|]]]]]]] [|]]]; try discriminate T. exists a, b, c, d, e, f, a', b', c', d', e', f'. split; [reflexivity|].
  cbn [two_test] in T. apply andb_true_iff in T. destruct T as [T T4]. apply andb_true_iff in T. destruct T as [T _]. apply andb_true_iff in T. destruct T as [_ T2].
  apply is_num_val in T2; [|reflexivity]. apply is_num_val in T4; [|reflexivity]. destruct T2 as [F2 V2]. destruct T4 as [F4 V4]. pose proof b_pi_err as PE. pose proof uu_small. pose proof pi_hi. pose proof PI_RGT_0. pose proof half_val as HV.
  assert (NV : bval (Bopp b_half) = - bval b_half) by apply B2R_Bopp.
  split; (split; [assumption|]); [rewrite V2, NV|rewrite V4]; rewrite HV; apply Rabs_le; lra.
Qed.
Example C115_ur_ex : forall bdot, In bdot b_dots -> exists x y, twou_run bdot = Ok [x; y] /\ two_test (Ok [x; y]) = true /\ joint_dist x two_last <= (1 + bpow radix2 (-44)) * joint_dist y two_last + bpow radix2 (-440).
Proof.
  intros bdot HD. pose proof (twou_runs bdot HD) as T. destruct (twou_run bdot) as [sols|] eqn:E; [|discriminate T].
  destruct (two_shape sols T) as (a & b & c & d & e & f & a' & b' & c' & d' & e' & f' & -> & S1 & S2). eexists _, _. split; [reflexivity|]. split; [exact T|].
  assert (NF : nearest_first two_last [[a; b; c; d; e; f]; [a'; b'; c'; d'; e'; f']]); [|exact (NF 0%nat 1%nat _ _ Nat.lt_0_1 eq_refl eq_refl)].
  apply (C115_ur_sorted few_libm pin_asin bdot in_order (twou_rf bdot) (twou_pose bdot) two_last [[a; b; c; d; e; f]; [a'; b'; c'; d'; e'; f']] HD in_order_sorts eq_refl eq_refl); try reflexivity; try exact E.
  - apply ints_limited; try reflexivity; repeat (constructor; [lia|]); constructor.
  - unfold two_last. repeat (constructor; [apply int_sane; lia|]). constructor.
  - intros x y [<- | [<- | []]] N; cbn in N; injection N as <-; assumption.
Qed.
Print Assumptions C115_ur_ex.
