(** The angles of an exact solution among those that robot6_sphericalwrist_invkin tries in binary64, joint by joint. *)
From Coq Require Import Reals ZArith List Bool Lra Lia Psatz.
From Flocq Require Import Core.Core IEEE754.BinarySingleNaN.
From Verif Require Import LinAlg RealAux Py FactsReal FactsLinAlg ModelRot SpecRot FactsRot FactsNorm SpecSub FactsSub ModelInvkin ModelFloat ModelFloat2 ModelFloat3 ModelFloat6 ModelFloat9 ModelFloat10 ModelFloat11 SpecRound FactsRound FactsB64 FactsExact FactsTrack SpecArc SpecSub4 SpecReach SpecRpy FactsRpy FactsIk64 FactsPath64 FactsJoint64 FactsArm64 FactsWrist64 FactsFind64.
From Verif Require FactsAngle PropNorm PropElbow PropReach PropReach2 PropSub4 PropSub2 PropMove PropAngle.
Import ListNotations.
Open Scope R_scope.

Lemma up24 : bpow radix2 (-24) = 536870912 * uu. Proof. rewrite uu_val'. cbn. lra. Qed.
Lemma up17 : bpow radix2 (-17) = 1 / 131072. Proof. cbn. lra. Qed.
Lemma up20 : bpow radix2 (-20) = 1 / 1048576. Proof. cbn. lra. Qed.
Lemma rate_perp k p q t : unit3 k -> Rabs (reach_rate k p q t) <= 2 * (norm (perp k q) * norm (perp k p)).
Proof.
  intros U. unfold reach_rate. set (w := rotate k t p).
  assert (E : dot q (cross k w) = dot (perp k q) (cross k (rotate k t (perp k p)))).
  { unfold perp. rewrite dot_vsub_l, dot_vscale_l. unfold w. assert (W : cross k (rotate k t (vsub p (vscale (dot p k) k))) = cross k (rotate k t p)).
    { unfold rotate. unfold unit3, norm2 in U. generalize (cos t) (sin t). intros c s. destruct k as [a b d], p as [x y zz]. unfold cross, vadd, vsub, vscale, dot in *. cbn [vx vy vz] in *. f_equal; ring. }
    rewrite W, dot_cross_l. ring. }
  rewrite E, Rabs_mult, (Rabs_right 2) by lra. apply Rmult_le_compat_l; [lra|]. eapply Rle_trans; [apply abs_dot_le|]. apply Rmult_le_compat_l; [apply norm_nonneg|].
  eapply Rle_trans; [apply FactsAngle.cross_le|]. rewrite (norm_unit _ U), Rmult_1_l, PropSub2.turn_norm by exact U. lra.
Qed.
Lemma rate_near p q q' k t : unit3 k -> Rabs (turn_rate p q k t - turn_rate p q' k t) <= norm p * norm (vsub q q').
Proof.
  intros U. unfold turn_rate. eapply Rle_trans; [apply near_dot|]. apply Rmult_le_compat_l; [apply norm_nonneg|].
  replace (vsub (cross k (rotate k t q)) (cross k (rotate k t q'))) with (cross k (vsub (rotate k t q) (rotate k t q'))) by (generalize (rotate k t q) (rotate k t q'); intros; la_ring).
  eapply Rle_trans; [apply FactsAngle.cross_le|]. rewrite (norm_unit _ U), Rmult_1_l, PropMove.rotate_sub by exact U. lra.
Qed.
Lemma div_le x y k : 0 < k -> x <= y * k -> x / k <= y.
Proof. intros K H. apply (Rmult_le_reg_r k); [exact K|]. replace (x / k * k) with x by (field; lra). exact H. Qed.
Lemma sub_cancel a b c : vsub (vsub a c) (vsub b c) = vsub a b. Proof. la_ring. Qed.
Lemma add_cancel a b c : vsub (vadd c a) (vadd c b) = vsub a b. Proof. la_ring. Qed.
Lemma chain2 a b c : vsub a c = vadd (vsub a b) (vsub b c). Proof. la_ring. Qed.
Lemma chain3 a b c d : vsub a d = vadd (vsub a b) (vadd (vsub b c) (vsub c d)). Proof. la_ring. Qed.

Section Base.
Context (L : libm) (bdot : list b64 -> list b64 -> b64) (f : b64 -> b64) (HD : In bdot b_dots) (HL : libm_ok L (bpow radix2 (-52)))
  (HG : libm_angle_ok L (bpow radix2 (-50))) (HF : libm_asin_ok f (bpow radix2 (-50))).
Notation A := (b64_arith L bdot).
Notation vval := (SpecRound.vval (A := b64_arith L bdot) bval).
Notation vfin := (SpecRound.vfin (A := b64_arith L bdot) bfin).
Notation mc := (FactsPath64.mc L bdot).
Notation vc := (FactsPath64.vc L bdot).
Context (H0 P0 P1 P2 P3 P6 : v3 b64) (R06 : m3 b64) (pT : v3 b64) (h0 : vec3) (Q : mat3) (M : R).
Context (S0 : stored_axis3 H0 h0) (MQ : mc 2200 R06 Q).
Context (F1 : vfin P1) (F2 : vfin P2) (F3 : vfin P3) (F6 : vfin P6) (FT : vfin pT).
Notation p0 := (vval P0). Notation p1 := (vval P1). Notation p2 := (vval P2). Notation p3 := (vval P3). Notation p6 := (vval P6). Notation T := (vval pT).
Context (RM : rg 150 M) (SZ : 1001 / 1000 * (norm p0 + norm p1 + norm p2 + norm p3 + norm p6 + norm T) <= M).
Notation cv := (FactsArm64.cv L bdot P6 pT Q).
Context (a1 rho : R) (R1 : 1 <= rho <= 32) (HH : Rabs (displacement ey cv (vneg h0) a1 - dot ey (vadd (vadd p1 p2) p3)) <= 4000 * (uu * M)).
Context (K1 : M <= rho * Rabs (turn_rate ey cv (vneg h0) a1)).
Context (z : gnormalizer A).
Let CL := cv_le L bdot P0 P1 P2 P3 P6 R06 pT Q M MQ RM SZ.
Let MP : 0 < M := FactsArm64.MP M RM.
Let UP := uu_pos.
Notation mr := (M / rho).
Lemma mrb_eq : mr * rho = M. Proof. field. lra. Qed.
Lemma mrb_lo : 0 < mr /\ M <= 32 * mr.
Proof. pose proof mrb_eq as E. assert (X : 0 < mr) by (apply Rmult_lt_0_compat; [exact MP|apply Rinv_0_lt_compat; lra]). split; [exact X|]. assert (mr * rho <= mr * 32) by (apply Rmult_le_compat_l; lra). lra. Qed.
Lemma mrb_le x : M <= rho * x -> mr <= x.
Proof. intros H. apply div_le; lra. Qed.
Ltac nn := pose proof (norm_nonneg p0); pose proof (norm_nonneg p1); pose proof (norm_nonneg p2); pose proof (norm_nonneg p3); pose proof (norm_nonneg p6); pose proof (norm_nonneg T).
Lemma base_near m : Rabs a1 <= 4 -> room L bdot z 0 m a1 -> 32700 * uu * rho <= m ->
  exists t1 x1 : b64, In t1 (g_subproblem4 A f (g_ey A) (w_v A P6 R06 pT) (g_vneg A H0) (w_d1 A P1 P2 P3)) /\ g_normalize A b_rem z 0 t1 = Ok (Some x1) /\ bfin x1 /\ Rabs (bval x1) <= 16 /\ there L bdot z (32700 * uu * rho) (bval x1) a1.
Proof.
  intros B1 RO ME. nn. pose proof (norm_nonneg cv) as CN. pose proof uu_val' as UV. assert (UM : 0 < uu * M) by (apply Rmult_lt_0_compat; lra). destruct mrb_lo as [MR0 MR1]. pose proof mrb_eq as MRE. pose proof (mrb_le _ K1) as MK. set (mr := M / rho) in *. clearbody mr.
  pose proof (v_ok L bdot HD HL P0 P1 P2 P3 P6 R06 pT Q M MQ F6 FT RM SZ) as VO. destruct (vc_stored L bdot M 2225 (w_v A P6 R06 pT) cv MP ltac:(lra) ltac:(lra) VO) as (SV & _ & TV). set (v := w_v A P6 R06 pT) in *.
  pose proof (d1_ok L bdot HD P0 P1 P2 P3 P6 pT M F1 F2 F3 RM SZ) as D1. set (d := w_d1 A P1 P2 P3) in *. destruct VO as (_ & VE & _).
  assert (SE : stored3 1 (g_ey A) ey). { pose proof (ey_val L bdot) as EV. unfold SpecRound.vval in EV. split; [reflexivity|]. split; [apply PropElbow.one_val|]. split; [reflexivity|]. split; [symmetry; exact EV|]. rewrite (norm_unit _ ey_unit). lra. }
  assert (R1' : rg 190 1) by (apply rg_1; lia). assert (RMM : rg 190 M) by (apply (FactsArm64.RM' M RM); lia). pose proof (neg_axis3 H0 h0 L bdot S0) as SN. assert (UN : unit3 (vneg h0)) by apply SN.
  destruct D1 as (FD & D1 & _). rewrite Rmult_1_l in D1.
  assert (DD : Rabs (displacement ey (vval v) (vneg h0) a1 - bval d) <= 6262 * (uu * M)).
  { assert (X : Rabs (displacement ey (vval v) (vneg h0) a1 - displacement ey cv (vneg h0) a1) <= 2225 * (uu * M)).
    { unfold displacement. eapply Rle_trans; [apply near_dot|]. rewrite (norm_unit _ ey_unit), Rmult_1_l, PropMove.rotate_sub by exact UN. exact VE. }
    apply Rabs_le_inv in X, D1, HH. apply Rabs_le. lra. }
  assert (KK : 99 / 100 * mr <= Rabs (turn_rate ey (vval v) (vneg h0) a1)).
  { pose proof (rate_near ey (vval v) cv (vneg h0) a1 UN) as X. rewrite (norm_unit _ ey_unit), Rmult_1_l in X. pose proof MK as Y. pose proof (Rabs_triang_inv (turn_rate ey cv (vneg h0) a1) (turn_rate ey cv (vneg h0) a1 - turn_rate ey (vval v) (vneg h0) a1)) as TI.
    replace (turn_rate ey cv (vneg h0) a1 - (turn_rate ey cv (vneg h0) a1 - turn_rate ey (vval v) (vneg h0) a1)) with (turn_rate ey (vval v) (vneg h0) a1) in TI by ring. rewrite (Rabs_minus_sym (turn_rate ey cv (vneg h0) a1)) in TI.
    assert (2225 * (uu * M) <= 1 / 100 * mr). { apply Rle_trans with (2225 * (uu * (32 * mr))); [apply Rmult_le_compat_l; [lra|apply Rmult_le_compat_l; lra]|]. replace (2225 * (uu * (32 * mr))) with (71200 * uu * mr) by ring. apply Rmult_le_compat_r; [lra|rewrite UV; lra]. } lra. }
  assert (NV : norm ey * norm (vval v) <= M). { rewrite (norm_unit _ ey_unit), Rmult_1_l. destruct SV as (_ & _ & _ & _ & W). exact W. }
  assert (UMR : uu * M <= uu * (32 * mr)) by (apply Rmult_le_compat_l; lra).
  assert (C1 : 8 * (6262 * (uu * M)) * M <= 99 / 100 * mr * (99 / 100 * mr)).
  { apply Rle_trans with (8 * (6262 * (uu * (32 * mr))) * (32 * mr)); [apply Rmult_le_compat; try lra; apply Rmult_le_pos; lra|]. replace (8 * (6262 * (uu * (32 * mr))) * (32 * mr)) with (51298304 * uu * (mr * mr)) by ring. replace (99 / 100 * mr * (99 / 100 * mr)) with (9801 / 10000 * (mr * mr)) by field.
    apply Rmult_le_compat_r; [apply Rmult_le_pos; lra|rewrite UV; lra]. }
  assert (C2 : 8 * (6262 * (uu * M)) <= 99 / 100 * mr). { apply Rle_trans with (8 * (6262 * (uu * (32 * mr)))); [lra|]. replace (8 * (6262 * (uu * (32 * mr)))) with (1603072 * uu * mr) by ring. apply Rmult_le_compat_r; [lra|rewrite UV; lra]. }
  destruct (root ey (vval v) (vneg h0) a1 (bval d) (6262 * (uu * M)) (99 / 100 * mr) M UN NV DD ltac:(lra) KK C1 C2) as (s & ES & SA & SK).
  assert (C3 : bpow radix2 (-20) * (1 * M) <= 99 / 100 * mr / 2) by (rewrite up20; lra).
  destruct (PropSub4.C106_complete L f bdot (g_ey A) v (g_vneg A H0) d ey (vval v) (vneg h0) 1 M s (99 / 100 * mr / 2) HD HG HF R1' RMM SE SV SN FD ES C3 SK) as (t1 & t2 & EL & FT1 & FT2 & OR).
  assert (G : forall t : b64, In t [t1; t2] -> bfin t -> same_angle (bpow radix2 (-40) * (1 * M) / (99 / 100 * mr / 2)) (bval t) s ->
    exists t1 x1 : b64, In t1 (g_subproblem4 A f (g_ey A) v (g_vneg A H0) d) /\ g_normalize A b_rem z 0 t1 = Ok (Some x1) /\ bfin x1 /\ Rabs (bval x1) <= 16 /\ there L bdot z (32700 * uu * rho) (bval x1) a1).
  { intros t IT Ft SM. rewrite <- EL in IT.
    assert (BT : Rabs (bval t) <= 8).
    { destruct (PropSub4.axis3_vtr _ _ SN) as [_ TN]. apply (sub4_small L f bdot (g_ey A) v (g_vneg A H0) d ey (vval v) (vneg h0) 1 M t); try assumption. apply PropSub4.stored3_vtr; [lra|exact SE]. }
    assert (SM2 : same_angle (29300 * uu * rho) (bval t) a1).
    { assert (X1 : bpow radix2 (-40) * (1 * M) / (99 / 100 * mr / 2) <= 16560 * uu * rho). { apply div_le; [lra|]. rewrite PropSub2.b40. replace (16560 * uu * rho * (99 / 100 * mr / 2)) with (81972 / 10 * uu * (mr * rho)) by field. rewrite MRE. replace (8192 * uu * (1 * M)) with (8192 * (uu * M)) by ring. lra. }
      assert (X2 : 2 * (6262 * (uu * M)) / (99 / 100 * mr) <= 12700 * uu * rho). { apply div_le; [lra|]. replace (12700 * uu * rho * (99 / 100 * mr)) with (12573 * uu * (mr * rho)) by field. rewrite MRE. lra. }
      destruct SM as (n & SM). exists n. apply Rabs_le_inv in SM, SA. apply Rabs_le. lra. }
    assert (UR : uu <= uu * rho <= uu * 32) by (split; [rewrite <- (Rmult_1_r uu) at 1|]; apply Rmult_le_compat_l; lra).
    destruct (norm_found L bdot z 0 t a1 (29300 * uu * rho) m Ft BT SM2 B1) as (x1 & EN & FX & BX & SX); [rewrite UV in *; lra|lra|exact RO|].
    exists t, x1. split; [exact IT|]. split; [exact EN|]. split; [exact FX|]. split; [exact BX|]. apply (there_weak L bdot z (29300 * uu * rho + 200 * uu)); [lra|exact SX]. }
  destruct OR as [OR | OR]; [apply (G t1); [left; reflexivity|exact FT1|exact OR]|apply (G t2); [right; left; reflexivity|exact FT2|exact OR]].
Qed.
End Base.

Section Arm.
Context (L : libm) (bdot : list b64 -> list b64 -> b64) (f : b64 -> b64) (HD : In bdot b_dots) (HL : libm_ok L (bpow radix2 (-52))) (HT : libm_total L)
  (HA : libm_arc_ok L (8 * uu)) (HG : libm_angle_ok L (bpow radix2 (-50))) (HF : libm_asin_ok f (bpow radix2 (-50))).
Notation A := (b64_arith L bdot).
Notation vval := (SpecRound.vval (A := b64_arith L bdot) bval).
Notation vfin := (SpecRound.vfin (A := b64_arith L bdot) bfin).
Notation mc := (FactsPath64.mc L bdot).
Notation vc := (FactsPath64.vc L bdot).
Context (H0 H1 H2 P0 P1 P2 P3 P6 : v3 b64) (R06 : m3 b64) (pT : v3 b64) (h0 h1 h2 : vec3) (Q : mat3) (M : R).
Context (S0 : stored_axis3 H0 h0) (S1 : stored_axis3 H1 h1) (S2 : stored_axis3 H2 h2) (MQ : mc 2200 R06 Q).
Context (F0 : vfin P0) (F1 : vfin P1) (F2 : vfin P2) (F3 : vfin P3) (F6 : vfin P6) (FT : vfin pT).
Notation p0 := (vval P0). Notation p1 := (vval P1). Notation p2 := (vval P2). Notation p3 := (vval P3). Notation p6 := (vval P6). Notation T := (vval pT).
Context (RM : rg 150 M) (M1 : 1 <= M) (SZ : 1001 / 1000 * (norm p0 + norm p1 + norm p2 + norm p3 + norm p6 + norm T) <= M).
Context (E1 : h1 = ey \/ h1 = vneg ey) (E2 : h2 = ey \/ h2 = vneg ey) (O0 : on_axis h0 p0) (Y0 : vy p0 = 0).
Notation cv := (FactsArm64.cv L bdot P6 pT Q).
Notation c26 := (FactsArm64.c26 L bdot P0 P1 P6 pT h0 Q).
Notation c2 := (FactsArm64.c2 L bdot P2 P3 h2).
Context (a1 a2 a3 rho : R) (R1 : 1 <= rho <= 32) (EX : norm (vsub (rotate h1 a2 (c2 a3)) (c26 a1)) <= 4000 * (uu * M)).
Context (K1 : M <= rho * Rabs (turn_rate ey cv (vneg h0) a1)) (K3 : M * M <= rho * Rabs (reach_rate h2 p3 p2 a3)) (K2 : M <= rho * norm (perp ey (c2 a3))).
Context (z : gnormalizer A).

Lemma height : Rabs (displacement ey cv (vneg h0) a1 - dot ey (vadd (vadd p1 p2) p3)) <= 4000 * (uu * M).
Proof.
  assert (X : dot ey (rotate h1 a2 (c2 a3)) = dot ey (vadd p2 p3)). { rewrite (flat h1 a2 _ E1). unfold FactsArm64.c2. rewrite !dot_vadd_r, (flat h2) by exact E2. reflexivity. }
  pose proof (near_dot ey (rotate h1 a2 (c2 a3)) (c26 a1)) as N. rewrite (norm_unit _ ey_unit), Rmult_1_l, X in N. unfold FactsArm64.c26 in N at 1. rewrite dot_vsub_r, !dot_vadd_r in N. unfold displacement. rewrite turn_neg, !dot_vadd_r.
  assert (Z : dot ey p0 = 0) by (unfold dot, ey; cbn [vx vy vz]; rewrite Y0; ring). rewrite Z in N. apply Rabs_le_inv in N. apply Rabs_le. lra.
Qed.
Let CL := cv_le L bdot P0 P1 P2 P3 P6 R06 pT Q M MQ RM SZ.
Let MP : 0 < M := FactsArm64.MP M RM.
Let UP := uu_pos.
Let U0 : unit3 h0 := proj1 S0.
Let U2 : unit3 h2 := proj1 S2.
Let U1 : unit3 h1 := proj1 S1.
Notation mr := (M / rho).
Lemma mr_eq : mr * rho = M. Proof. field. lra. Qed.
Lemma mr_lo : 0 < mr /\ M <= 32 * mr.
Proof. pose proof mr_eq as E. assert (X : 0 < mr) by (apply Rmult_lt_0_compat; [exact MP|apply Rinv_0_lt_compat; lra]). split; [exact X|]. assert (mr * rho <= mr * 32) by (apply Rmult_le_compat_l; lra). lra. Qed.
Lemma mr_le x : M <= rho * x -> mr <= x.
Proof. intros H. apply div_le; lra. Qed.
Ltac nn := pose proof (norm_nonneg p0); pose proof (norm_nonneg p1); pose proof (norm_nonneg p2); pose proof (norm_nonneg p3); pose proof (norm_nonneg p6); pose proof (norm_nonneg T).
Lemma base_found m : Rabs a1 <= 4 -> room L bdot z 0 m a1 -> 32700 * uu * rho <= m ->
  exists t1 x1 : b64, In t1 (g_subproblem4 A f (g_ey A) (w_v A P6 R06 pT) (g_vneg A H0) (w_d1 A P1 P2 P3)) /\ g_normalize A b_rem z 0 t1 = Ok (Some x1) /\ bfin x1 /\ Rabs (bval x1) <= 16 /\ there L bdot z (32700 * uu * rho) (bval x1) a1.
Proof. pose proof height as HH. apply (base_near L bdot f HD HL HG HF H0 P0 P1 P2 P3 P6 R06 pT h0 Q M); assumption. Qed.
Lemma perps : M <= 1048576 * norm (perp h2 p2) /\ M <= 1048576 * norm (perp h2 p3).
Proof.
  nn. pose proof (rate_perp h2 p3 p2 a3 U2) as X. pose proof (FactsTrack.perp_le h2 p2 U2) as Y2. pose proof (FactsTrack.perp_le h2 p3 U2) as Y3. set (x2 := norm (perp h2 p2)) in *. set (x3 := norm (perp h2 p3)) in *.
  assert (x20 : 0 <= x2) by apply norm_nonneg. assert (x30 : 0 <= x3) by apply norm_nonneg.
  assert (K : M * M <= 64 * (x2 * x3)). { eapply Rle_trans; [exact K3|]. apply Rle_trans with (rho * (2 * (x2 * x3))); [apply Rmult_le_compat_l; lra|]. assert (0 <= x2 * x3) by (apply Rmult_le_pos; assumption). assert (rho * (2 * (x2 * x3)) <= 32 * (2 * (x2 * x3))) by (apply Rmult_le_compat_r; lra). lra. }
  assert (P2' : norm p2 <= M) by lra. assert (P3' : norm p3 <= M) by lra.
  split; apply (Rmult_le_reg_r M); try exact MP.
  - assert (x2 * x3 <= x2 * M) by (apply Rmult_le_compat_l; lra). assert (0 <= x2 * M) by (apply Rmult_le_pos; lra). lra.
  - assert (x2 * x3 <= M * x3) by (apply Rmult_le_compat_r; lra). assert (0 <= M * x3) by (apply Rmult_le_pos; lra). lra.
Qed.
Lemma c26_moves x1 e : same_angle e x1 a1 -> norm (vsub (c26 x1) (c26 a1)) <= e * M.
Proof.
  intros SA. unfold FactsArm64.c26. nn. pose proof (norm_nonneg cv) as CN.
  rewrite sub_cancel.
  assert (SA' : same_angle e (- x1) (- a1)). { destruct SA as (n & SA). exists (- n)%Z. rewrite opp_IZR. apply Rabs_le_inv in SA. apply Rabs_le. lra. }
  assert (E0 : 0 <= e). { destruct SA as (n & SA). pose proof (Rabs_pos (x1 - a1 - 2 * PI * IZR n)). lra. }
  eapply Rle_trans; [apply same_moves; [exact U0|exact SA']|]. apply Rmult_le_compat_l; lra.
Qed.
Lemma c2_moves x3 e : same_angle e x3 a3 -> norm (vsub (c2 x3) (c2 a3)) <= e * M.
Proof.
  intros SA. unfold FactsArm64.c2. nn.
  rewrite add_cancel.
  assert (E0 : 0 <= e). { destruct SA as (n & SA). pose proof (Rabs_pos (x3 - a3 - 2 * PI * IZR n)). lra. }
  eapply Rle_trans; [apply same_moves; [exact U2|exact SA]|]. apply Rmult_le_compat_l; lra.
Qed.
Let c26l := c26_le L bdot H0 P0 P1 P2 P3 P6 R06 pT h0 Q M S0 MQ RM SZ.
Let c2l := c2_le L bdot H2 P0 P1 P2 P3 P6 pT h2 M S2 RM SZ.
Let p26ok := p26_ok L bdot HD HL HT H0 P0 P1 P2 P3 P6 R06 pT h0 Q M S0 MQ F0 F1 F6 FT RM SZ.
Lemma elbow_found m (x1 : b64) l : Rabs a3 <= 4 -> room L bdot z 2 m a3 -> 2200000000 * uu * rho <= m -> bfin x1 -> same_angle (32700 * uu * rho) (bval x1) a1 ->
  g_subproblem3 A (l3 A P3) (l3 A P2) (l3 A H2) (l_norm A (l3 A (w_p26 A H0 P0 P1 P6 R06 pT x1))) = Ok l ->
  exists t3 x3 : b64, In t3 l /\ g_normalize A b_rem z 2 t3 = Ok (Some x3) /\ bfin x3 /\ Rabs (bval x3) <= 16 /\ there L bdot z (2200000000 * uu * rho) (bval x3) a3.
Proof.
  intros B3 RO ME FX SX E. nn. pose proof uu_val' as UV. assert (UM : 0 < uu * M) by (apply Rmult_lt_0_compat; lra). assert (UMM : 0 < uu * (M * M)) by (rewrite <- Rmult_assoc; apply Rmult_lt_0_compat; lra).
  set (c := c26 (bval x1)) in *. pose proof (c26l (bval x1)) as CB. fold c in CB. pose proof (norm_nonneg c) as CN. pose proof (p26ok x1 FX) as VO. fold c in VO. set (v := w_p26 A H0 P0 P1 P6 R06 pT x1) in *.
  destruct (vc_stored L bdot M 3395 _ _ MP ltac:(lra) CB VO) as (SV & _ & TV).
  destruct (tr_norm bdot 0 M _ _ HD ltac:(unfold cb; lra) (FactsArm64.RM' M RM 390 ltac:(lia)) TV) as ((FD & DE & _) & D0). change (l_norm A (l3 A v)) with (b_sqrt (bdot (l3 A v) (l3 A v))) in E. set (d := b_sqrt (bdot (l3 A v) (l3 A v))) in *.
  assert (ND : Rabs (norm (vval v) - norm c) <= 3395 * (uu * M)) by (eapply Rle_trans; [apply norm_dist_le|apply VO]).
  assert (DC : Rabs (bval d - norm c) <= 3411 * (uu * M)). { apply Rabs_le_inv in DE. apply Rabs_le_inv in ND. apply Rabs_le. lra. }
  assert (UM1 : 3411 * (uu * M) <= 1 / 10000 * M) by (rewrite <- Rmult_assoc; apply Rmult_le_compat_r; [lra|rewrite UV; lra]).
  assert (DM : Rabs (bval d) <= M) by (apply Rabs_le_inv in DC; apply Rabs_le; lra).
  assert (MO : moderate M) by exact (FactsArm64.RM' M RM 380 ltac:(lia)).
  destruct (vc_stored L bdot M 0 P2 p2 MP ltac:(lra) ltac:(lra) ltac:(apply vc_exact; [assumption|lra])) as (_ & S2' & _). destruct (vc_stored L bdot M 0 P3 p3 MP ltac:(lra) ltac:(lra) ltac:(apply vc_exact; [assumption|lra])) as (_ & S3' & _).
  assert (SK : stored_axis (l3 A H2) h2). { destruct S2 as (UU & G0 & G1 & G2 & G3). split; [exact UU|]. exists (w0 H2), (w1 H2), (w2 H2). tauto. }
  destruct perps as [PB2 PB3].
  assert (UR : uu <= uu * rho <= uu * 32) by (split; [rewrite <- (Rmult_1_r uu) at 1|]; apply Rmult_le_compat_l; lra).
  assert (Q2 : Rabs (bval d * bval d - dot c c) <= 6822 * (uu * (M * M))).
  { rewrite <- norm_sq. replace (bval d * bval d - norm c * norm c) with ((bval d - norm c) * (bval d + norm c)) by ring. rewrite Rabs_mult. apply Rle_trans with (3411 * (uu * M) * (2 * M)); [|right; ring].
    apply Rmult_le_compat; try apply Rabs_pos; [exact DC|]. rewrite Rabs_right by lra. rewrite Rabs_right in DM by lra. lra. }
  pose proof (c26_moves (bval x1) _ SX) as CM. fold c in CM. pose proof (c26l a1) as CB1. pose proof (norm_nonneg (c26 a1)).
  pose proof (near_sq c (c26 a1) M _ ltac:(lra) ltac:(lra) CM) as Q1.
  assert (SQ : Rabs (reach_sq h2 p3 p2 a3 - dot (c26 a1) (c26 a1)) <= 8000 * (uu * (M * M))).
  { pose proof (c2l a3) as CB3. replace (reach_sq h2 p3 p2 a3) with (dot (rotate h1 a2 (c2 a3)) (rotate h1 a2 (c2 a3))) by (rewrite <- !norm_sq, PropSub2.turn_norm by exact U1; rewrite norm_sq; reflexivity).
    replace (8000 * (uu * (M * M))) with (2 * M * (4000 * (uu * M))) by ring. apply near_sq; [rewrite PropSub2.turn_norm by exact U1; lra|lra|exact EX]. }
  assert (UMR : uu * (M * M) <= uu * rho * (M * M)). { apply Rmult_le_compat_r; [apply Rmult_le_pos; lra|lra]. }
  assert (EE : Rabs (reach_sq h2 p3 p2 a3 - bval d * bval d) <= 82000 * (uu * rho * (M * M))).
  { replace (2 * M * (32700 * uu * rho * M)) with (65400 * (uu * rho * (M * M))) in Q1 by ring. apply Rabs_le_inv in Q1, Q2, SQ. apply Rabs_le. lra. }
  set (kap := M * M / rho). assert (KE : kap * rho = M * M) by (unfold kap; field; lra). assert (MM0 : 0 < M * M) by (apply Rmult_lt_0_compat; lra).
  assert (K0 : 0 < kap) by (apply Rmult_lt_0_compat; [exact MM0|apply Rinv_0_lt_compat; lra]). assert (KM : M * M <= 32 * kap) by (assert (kap * rho <= kap * 32) by (apply Rmult_le_compat_l; lra); lra).
  assert (C1 : bpow radix2 (-17) * (M * M) <= kap) by (rewrite up17; lra). assert (C2 : kap <= Rabs (reach_rate h2 p3 p2 a3)) by (apply div_le; lra).
  assert (C3 : 64 * (82000 * (uu * rho * (M * M))) * (M * M) <= kap * kap).
  { apply Rle_trans with (64 * (82000 * (uu * 32 * (32 * kap))) * (32 * kap)).
    - apply Rmult_le_compat; [|lra| |exact KM]. + apply Rmult_le_pos; [lra|]. apply Rmult_le_pos; [lra|]. apply Rmult_le_pos; [lra|lra]. + apply Rmult_le_compat_l; [lra|]. apply Rmult_le_compat_l; [lra|]. apply Rmult_le_compat; lra.
    - replace (64 * (82000 * (uu * 32 * (32 * kap))) * (32 * kap)) with (171966464000 * uu * (kap * kap)) by ring. rewrite <- (Rmult_1_l (kap * kap)) at 2. apply Rmult_le_compat_r; [apply Rmult_le_pos; lra|rewrite UV; lra]. }
  assert (HA' : libm_arc_ok L (bpow radix2 (-50))) by (rewrite b50; exact HA).
  destruct (PropReach2.C110_complete L bdot (l3 A P3) (l3 A P2) (l3 A H2) d p3 p2 h2 M a3 (82000 * (uu * rho * (M * M))) kap l HD HA' MO S3' S2' SK FD DM) as (t3 & I3 & F3' & SM); try assumption.
  destruct (PropReach.residual L bdot HD HA (l3 A P3) (l3 A P2) (l3 A H2) d p3 p2 h2 M MO S3' S2' SK FD DM PB3 PB2 l t3 E I3) as (_ & BT3 & _).
  assert (SM2 : same_angle (2160000000 * uu * rho) (bval t3) a3).
  { eapply same_weak; [|exact SM]. apply div_le; [exact K0|]. rewrite up24. replace (2160000000 * uu * rho * kap) with (2160000000 * (uu * (kap * rho))) by ring. rewrite KE.
    assert (uu * rho * (M * M) <= uu * 32 * (M * M)) by (apply Rmult_le_compat_r; lra). lra. }
  destruct (norm_found L bdot z 2 t3 a3 (2160000000 * uu * rho) m F3') as (x3 & EN & FX3 & BX & SX3); [lra|exact SM2|exact B3|rewrite UV in *; lra|lra|exact RO|].
  exists t3, x3. split; [exact I3|]. split; [exact EN|]. split; [exact FX3|]. split; [exact BX|]. apply (there_weak L bdot z (2160000000 * uu * rho + 200 * uu)); [lra|exact SX3].
Qed.
Lemma shoulder_found m (t1 x1 t3 x3 t2 : b64) l : Rabs a2 <= 4 -> room L bdot z 1 m a2 -> 5300000000 * uu * (rho * rho) <= m -> bfin x1 -> Rabs (bval x1) <= 16 -> bfin x3 -> Rabs (bval x3) <= 16 ->
  same_angle (32700 * uu * rho) (bval x1) a1 -> same_angle (2200000000 * uu * rho) (bval x3) a3 ->
  In t1 (g_subproblem4 A f (g_ey A) (w_v A P6 R06 pT) (g_vneg A H0) (w_d1 A P1 P2 P3)) -> g_normalize A b_rem z 0 t1 = Ok (Some x1) ->
  g_subproblem3 A (l3 A P3) (l3 A P2) (l3 A H2) (l_norm A (l3 A (w_p26 A H0 P0 P1 P6 R06 pT x1))) = Ok l -> In t3 l -> g_normalize A b_rem z 2 t3 = Ok (Some x3) ->
  g_subproblem1 A (l3 A (w_p2 A H2 P2 P3 x3)) (l3 A (w_p26 A H0 P0 P1 P6 R06 pT x1)) (l3 A H1) = Ok t2 ->
  exists x2 : b64, g_normalize A b_rem z 1 t2 = Ok (Some x2) /\ bfin x2 /\ Rabs (bval x2) <= 16 /\ there L bdot z (5300000000 * uu * (rho * rho)) (bval x2) a2.
Proof.
  intros B2 RO ME FX1 BX1 FX3 BX3 SX1 SX3 I1 N1 E3 I3 N3 E. nn. pose proof uu_val' as UV. assert (UM : 0 < uu * M) by (apply Rmult_lt_0_compat; lra). destruct perps as [PB2 PB3].
  pose proof (base_height L bdot f HD HL HG HF H0 P0 P1 P2 P3 P6 R06 pT h0 Q M S0 MQ F1 F2 F3 F6 FT RM SZ Y0 z t1 x1 I1 N1 FX1 ltac:(lra)) as HH.
  pose proof (elbow L bdot HD HL HT HA H0 H2 P0 P1 P2 P3 P6 R06 pT h0 h1 h2 Q M S0 S2 MQ F0 F1 F2 F3 F6 FT RM SZ E1 E2 z x1 t3 x3 l FX1 E3 I3 N3 FX3 ltac:(lra) PB2 PB3) as SQ.
  pose proof (c26_moves (bval x1) _ SX1) as CM1. pose proof (c2_moves (bval x3) _ SX3) as CM3. pose proof (mr_le _ K2) as MK. destruct mr_lo as [MR0 MR1]. pose proof mr_eq as MRE. set (mr := M / rho) in *. clearbody mr.
  assert (RHO2 : 1 <= rho * rho <= 1024) by nra.
  assert (UMR : uu * rho * M = uu * (rho * rho) * mr) by (rewrite <- MRE; ring).
  assert (UR2 : 0 < uu * (rho * rho)) by (apply Rmult_lt_0_compat; lra). assert (URS : uu * (rho * rho) <= uu * 1024) by (apply Rmult_le_compat_l; lra).
  assert (PE : 99 / 100 * mr <= norm (perp ey (c2 (bval x3)))).
  { pose proof (perp_near ey (c2 (bval x3)) (c2 a3) ey_unit) as X. apply Rabs_le_inv in X. assert (2200000000 * uu * rho * M <= 1 / 100 * mr).
    { replace (2200000000 * uu * rho * M) with (2200000000 * (uu * rho * M)) by ring. rewrite UMR, <- Rmult_assoc. apply Rmult_le_compat_r; [lra|]. rewrite UV in *. lra. } lra. }
  assert (OFF : M <= 102 / 100 * rho * norm (perp ey (c2 (bval x3)))).
  { apply Rle_trans with (102 / 100 * rho * (99 / 100 * mr)); [|apply Rmult_le_compat_l; lra]. replace (102 / 100 * rho * (99 / 100 * mr)) with (10098 / 10000 * (mr * rho)) by field. rewrite MRE. lra. }
  assert (VO : vc M 8000 (w_p26 A H0 P0 P1 P6 R06 pT x1) (c26 (bval x1))) by (eapply vc_weak; [lra| |exact (p26ok x1 FX1)]; lra).
  destruct (shoulder_raw L bdot HD HL HT HA H1 H2 P0 P1 P2 P3 P6 pT h1 h2 M S1 S2 F2 F3 RM SZ E1 E2 (w_p26 A H0 P0 P1 P6 R06 pT x1) (c26 (bval x1)) t2 x3 (102 / 100 * rho) VO (c26l (bval x1)) FX3 E ltac:(lra) OFF ltac:(lra) SQ) as (FT2 & BT2 & RS).
  rewrite seps_uu in RS. set (y := c2 (bval x3)) in *. set (c := c26 (bval x1)) in *.
  assert (MV : norm (vsub (rotate h1 (bval t2) y) (rotate h1 a2 y)) <= 2900000000 * (uu * rho * M)).
  { assert (X3 : norm (vsub (rotate h1 a2 (c2 a3)) (rotate h1 a2 y)) <= 2200000000 * uu * rho * M) by (rewrite PropMove.rotate_sub by exact U1; rewrite norm_vsub_sym; exact CM3).
    rewrite (chain3 _ c (c26 a1)). eapply Rle_trans; [apply norm_triangle|]. eapply Rle_trans; [apply Rplus_le_compat_l; apply norm_triangle|].
    assert (X4 : norm (vsub (c26 a1) (rotate h1 a2 y)) <= 4000 * (uu * M) + 2200000000 * uu * rho * M) by (rewrite (chain2 _ (rotate h1 a2 (c2 a3))); eapply Rle_trans; [apply norm_triangle|]; rewrite (norm_vsub_sym (c26 a1)); lra).
    assert (UM1 : uu * M * 1 <= uu * M * rho) by (apply Rmult_le_compat_l; lra).
    assert (UR : uu <= uu * rho * M). { rewrite Rmult_assoc. rewrite <- (Rmult_1_r uu) at 1. apply Rmult_le_compat_l; [lra|]. rewrite <- (Rmult_1_r 1). apply Rmult_le_compat; lra. }
    lra. }
  assert (BP : 99 / 100 * mr <= norm (perp h1 y)) by (rewrite (same_perp h1 ey y E1); exact PE).
  assert (SM : same_angle (18 / 10 * (2900000000 * (uu * rho * M) / (99 / 100 * mr))) (bval t2) a2).
  { apply (moves_same h1 (bval t2) a2 _ (99 / 100 * mr) y U1 ltac:(lra) BP MV). rewrite UMR. replace (10 * (2900000000 * (uu * (rho * rho) * mr))) with (29000000000 * (uu * (rho * rho)) * mr) by ring. apply Rmult_le_compat_r; [lra|]. rewrite UV in *. lra. }
  assert (SM2 : same_angle (5282000000 * uu * (rho * rho)) (bval t2) a2).
  { eapply same_weak; [|exact SM]. rewrite UMR. replace (2900000000 * (uu * (rho * rho) * mr) / (99 / 100 * mr)) with (290000000000 / 99 * (uu * (rho * rho))) by (field; lra). lra. }
  destruct (norm_found L bdot z 1 t2 a2 (5282000000 * uu * (rho * rho)) m FT2) as (x2 & EN & FX2 & BX & SX2); [lra|exact SM2|exact B2|rewrite UV in *; lra| |exact RO|].
  { assert (uu * 1 <= uu * (rho * rho)) by (apply Rmult_le_compat_l; lra). lra. }
  exists x2. split; [exact EN|]. split; [exact FX2|]. split; [exact BX|]. apply (there_weak L bdot z (5282000000 * uu * (rho * rho) + 200 * uu)); [|exact SX2]. assert (uu * 1 <= uu * (rho * rho)) by (apply Rmult_le_compat_l; lra). lra.
Qed.
End Arm.

Lemma same_sym e t u : same_angle e t u -> same_angle e u t.
Proof. intros (n & H). exists (- n)%Z. rewrite opp_IZR. apply Rabs_le_inv in H. apply Rabs_le. lra. Qed.
Lemma same_sin e t u : same_angle e t u -> Rabs (sin t - sin u) <= e.
Proof. intros S. apply (same_sincos e t u S). Qed.
Section Wrist.
Context (L : libm) (bdot : list b64 -> list b64 -> b64) (HD : In bdot b_dots) (HL : libm_ok L (bpow radix2 (-52))) (HT : libm_total L) (HA : libm_arc_ok L (8 * uu)).
Notation A := (b64_arith L bdot).
Notation vval := (SpecRound.vval (A := b64_arith L bdot) bval).
Notation mc := (FactsPath64.mc L bdot).
Notation vc := (FactsPath64.vc L bdot).
Context (H3 H4 H5 : v3 b64) (R03 R06 : m3 b64) (h3 h4 h5 : vec3) (N Q : mat3).
Context (S3 : stored_axis3 H3 h3) (S4 : stored_axis3 H4 h4) (S5 : stored_axis3 H5 h5) (MN : mc 3475 R03 N) (MQ : mc 2200 R06 Q).
Context (P34 : dot h3 h4 = 0) (P35 : h5 = h3 \/ h5 = vneg h3).
Context (Na : mat3) (SNa : is_SO3 Na) (a4 a5 a6 D w : R) (D0 : 0 <= D) (W1 : 1 <= w <= 32) (KW : 1 <= w * Rabs (sin a5)).
Context (EXQ : forall v, mvec Q v = mvec Na (rotate h3 a4 (rotate h4 a5 (rotate h5 a6 v)))) (ND : forall v, norm (vsub (mvec (mT N) v) (mvec (mT Na) v)) <= D * norm v).
Context (z : gnormalizer A).
Notation E := (D + 421000000 * uu * w).
Context (EW : 256 * (E * (w * w)) <= 1).
Let U3 : unit3 h3 := proj1 S3.
Let U4 : unit3 h4 := proj1 S4.
Let U5 : unit3 h5 := proj1 S5.
Notation u4 := (FactsWrist64.u4 h5 N Q).
Definition ua : vec3 := rotate h3 a4 (rotate h4 a5 h5).
Lemma back_a v : mvec (mT Na) (mvec Na v) = v.
Proof. rewrite <- (mT_mT Na) at 2. apply SO3_vec_T. apply SO3_T. exact SNa. Qed.
Lemma u4_near : norm (vsub u4 ua) <= D.
Proof.
  unfold FactsWrist64.u4. replace ua with (mvec (mT Na) (mvec Q h5)).
  - eapply Rle_trans; [apply ND|]. rewrite norm_SO3, (norm_unit _ U5) by apply MQ. lra.
  - rewrite EXQ, back_a. unfold ua. rewrite (turn_axis h5) by (try exact U5; apply axis_self; exact U5). reflexivity.
Qed.
Lemma s5 : exists s, (s = 1 \/ s = -1) /\ h5 = vscale s h3.
Proof. destruct P35 as [-> | ->]; [exists 1|exists (-1)]; (split; [auto|]); destruct h3; unfold vscale, vneg; cbn; f_equal; ring. Qed.
Lemma h_dot s t : h5 = vscale s h3 -> dot (rotate h4 t h5) h3 = s * cos t.
Proof.
  intros ->. unfold rotate. rewrite !dot_vadd_l, !dot_vscale_l, !dot_vscale_r, (dot_comm h4 h3), P34. pose proof U3 as X. unfold unit3, norm2 in X. rewrite X.
  replace (dot (cross h4 (vscale s h3)) h3) with 0; [ring|]. clear. generalize h3 h4. intros x y. symmetry. destruct x, y. unfold dot, cross, vscale. cbn. ring.
Qed.
Lemma h_side s t : h5 = vscale s h3 -> dot (rotate h4 t h5) (cross h3 h4) = - s * sin t.
Proof.
  intros ->. unfold rotate. rewrite !dot_vadd_l, !dot_vscale_l, !dot_vscale_r, (dot_comm h4 h3), P34.
  assert (X0 : dot h3 (cross h3 h4) = 0) by (clear; generalize h3 h4; intros x y; destruct x, y; unfold dot, cross; cbn; ring). rewrite X0.
  assert (X1 : dot (cross h4 (vscale s h3)) (cross h3 h4) = - s * (dot h3 h3 * dot h4 h4 - dot h3 h4 * dot h3 h4)) by (clear; generalize h3 h4; intros x y; destruct x, y; unfold dot, cross, vscale; cbn; ring).
  rewrite X1, P34. pose proof U3 as X. pose proof U4 as Y. unfold unit3, norm2 in X, Y. rewrite X, Y. ring.
Qed.
Lemma ss s : s = 1 \/ s = -1 -> s * s = 1. Proof. intros [-> | ->]; ring. Qed.
Lemma w0_perp : norm (perp h3 (rotate h4 a5 h5)) = Rabs (sin a5).
Proof.
  destruct s5 as (s & SS & EH). pose proof (perp_sq h3 (rotate h4 a5 h5) U3) as X. rewrite (h_dot s a5 EH), <- norm_sq, PropSub2.turn_norm, (norm_unit _ U5) in X by exact U4.
  assert (Y : norm (perp h3 (rotate h4 a5 h5)) * norm (perp h3 (rotate h4 a5 h5)) = sin a5 * sin a5). { rewrite X. pose proof (sin2_cos2 a5) as SC. unfold Rsqr in SC. pose proof (ss s SS) as SQ. replace (s * cos a5 * (s * cos a5)) with (s * s * (cos a5 * cos a5)) by ring. rewrite SQ. lra. }
  rewrite <- (Rabs_right (norm (perp h3 (rotate h4 a5 h5)))) by apply Rle_ge, norm_nonneg. apply Rsqr_eq_abs_0. exact Y.
Qed.
Lemma ua_perp : norm (perp h3 ua) = Rabs (sin a5).
Proof.
  rewrite <- w0_perp. apply Rsqr_inj; try apply norm_nonneg. unfold Rsqr. rewrite !(perp_sq h3) by exact U3. unfold ua. rewrite PropSub2.turn_height by exact U3. rewrite <- !norm_sq, PropSub2.turn_norm by exact U3. reflexivity.
Qed.
Lemma E_rng : 0 <= D <= E /\ 0 < E /\ 256 * (E * w) <= 1 /\ 421000000 * uu * w <= E /\ E <= E * w /\ E * w <= E * (w * w).
Proof.
  pose proof uu_pos as UP. assert (UW : 0 < uu * w) by (apply Rmult_lt_0_compat; lra). assert (X : 0 < E) by lra. assert (Y : E * 1 <= E * w) by (apply Rmult_le_compat_l; lra). assert (Z : E * (w * 1) <= E * (w * w)) by (apply Rmult_le_compat_l; [lra|apply Rmult_le_compat_l; lra]).
  repeat split; lra.
Qed.
Lemma off : 1 <= 101 / 100 * w * norm (perp h3 u4).
Proof.
  destruct E_rng as ((_ & E1) & E2 & E3 & _). pose proof (perp_near h3 u4 ua U3) as X. rewrite ua_perp in X. pose proof u4_near as Y. apply Rabs_le_inv in X. assert (w * (Rabs (sin a5) - D) <= w * norm (perp h3 u4)) by (apply Rmult_le_compat_l; lra). assert (w * D <= w * E) by (apply Rmult_le_compat_l; lra). lra.
Qed.
Notation v4 := (g_mv A (g_mm A (v3cols R03) R06) H5).
Notation r := (101 / 100 * w).
Lemma pair_found l : g_subproblem2 A (l3 A H5) (l3 A v4) (l3 A H3) (l3 A H4) = Ok l ->
  exists t4 t5 : b64, In (t4, t5) l /\ bfin t4 /\ bfin t5 /\ Rabs (bval t4) <= 16 / 5 /\ Rabs (bval t5) <= 16 / 5 /\ same_angle (36 / 10 * (E * w)) (bval t5) a5 /\ same_angle (9 * (E * (w * w))) (bval t4) a4.
Proof.
  intros EQ2. pose proof uu_pos as UP. destruct E_rng as ((_ & E1) & E2 & E3 & E4 & E5 & E6). destruct s5 as (s & SS & EH). pose proof (ss s SS) as SQ.
  set (sg := if Rle_lt_dec 0 (sin a5) then - s else s). assert (SG : sg = 1 \/ sg = -1) by (unfold sg; destruct (Rle_lt_dec 0 (sin a5)), SS as [-> | ->]; lra).
  destruct (wrist_side L bdot HD HL HA H3 H4 H5 R03 R06 h3 h4 h5 N Q S3 S4 S5 MN MQ P34 P35 r ltac:(lra) off l sg EQ2 SG) as (t4 & t5 & I & SD).
  destruct (wrist_raw L bdot HD HL HA H3 H4 H5 R03 R06 h3 h4 h5 N Q S3 S4 S5 MN MQ P34 P35 r ltac:(lra) off l t4 t5 EQ2 I) as (F4 & F5 & B4 & B5 & RS).
  exists t4, t5. split; [exact I|]. split; [exact F4|]. split; [exact F5|]. split; [exact B4|]. split; [exact B5|].
  rewrite (h_side s _ EH) in SD. replace (sg * (- s * sin (bval t5))) with (- (sg * s) * sin (bval t5)) in SD by ring.
  set (x := rotate h3 (bval t4) (rotate h4 (bval t5) h5)) in *.
  assert (XU : norm (vsub x ua) <= E).
  { pose proof u4_near as UN. rewrite (chain2 x u4 ua). eapply Rle_trans; [apply norm_triangle|]. assert (0 < uu * w) by (apply Rmult_lt_0_compat; lra). lra. }
  assert (CC : Rabs (cos a5 - cos (bval t5)) <= E).
  { pose proof (near_dot_l h3 x ua) as X. rewrite (norm_unit _ U3), Rmult_1_l in X. unfold x, ua in X. rewrite !PropSub2.turn_height in X by exact U3. rewrite !(h_dot s _ EH) in X. fold x ua in X.
    assert (Y : Rabs (cos a5 - cos (bval t5)) = Rabs (s * cos (bval t5) - s * cos a5)) by (destruct SS as [-> | ->]; [rewrite Rabs_minus_sym; f_equal; ring|f_equal; ring]). rewrite Y. lra. }
  assert (IW : 0 < / w) by (apply Rinv_0_lt_compat; lra). assert (KS : / w <= Rabs (sin a5)). { apply (Rmult_le_reg_l w); [lra|]. rewrite Rinv_r by lra. exact KW. }
  assert (C20 : 20 * E <= / w). { apply (Rmult_le_reg_r w); [lra|]. rewrite Rinv_l by lra. lra. }
  assert (EI : 36 / 10 * (E / / w) = 36 / 10 * (E * w)) by (field; lra).
  assert (SM5 : same_angle (36 / 10 * (E * w)) (bval t5) a5).
  { destruct (PropReach2.cos_match a5 (bval t5) E (/ w) CC IW KS C20) as [SM | SM]; rewrite EI in SM; [apply same_sym; exact SM|]. exfalso. apply same_sin in SM. rewrite sin_neg in SM. apply Rabs_le_inv in SM.
    assert (WW : 36 / 10 * (E * w) < / w). { apply (Rmult_lt_reg_r w); [lra|]. rewrite Rinv_l by lra. replace (36 / 10 * (E * w) * w) with (36 / 10 * (E * (w * w))) by ring. lra. }
    unfold sg in SD. unfold Rabs in KS. destruct (Rle_lt_dec 0 (sin a5)), (Rcase_abs (sin a5)); try lra.
    - replace (- (- s * s)) with 1 in SD by (rewrite Ropp_mult_distr_l_reverse, SQ; ring). lra.
    - rewrite SQ in SD. lra. }
  split; [exact SM5|].
  pose proof (same_moves h4 (bval t5) a5 _ h5 U4 SM5) as M5. rewrite (norm_unit _ U5), Rmult_1_r in M5. set (y := rotate h4 a5 h5) in *.
  assert (M4 : norm (vsub (rotate h3 (bval t4) y) (rotate h3 a4 y)) <= 46 / 10 * (E * w)).
  { assert (X : norm (vsub (rotate h3 (bval t4) y) x) <= 36 / 10 * (E * w)) by (unfold x; rewrite PropMove.rotate_sub by exact U3; rewrite norm_vsub_sym; exact M5).
    change (rotate h3 a4 y) with ua. rewrite (chain2 (rotate h3 (bval t4) y) x ua). eapply Rle_trans; [apply norm_triangle|]. lra. }
  assert (BP : / w <= norm (perp h3 y)) by (unfold y; rewrite w0_perp; exact KS).
  assert (C10 : 10 * (46 / 10 * (E * w)) <= / w). { apply (Rmult_le_reg_r w); [lra|]. rewrite Rinv_l by lra. replace (10 * (46 / 10 * (E * w)) * w) with (46 * (E * (w * w))) by field. lra. }
  pose proof (moves_same h3 (bval t4) a4 _ (/ w) y U3 IW BP M4 C10) as SM4. eapply same_weak; [|exact SM4]. replace (18 / 10 * (46 / 10 * (E * w) / / w)) with (828 / 100 * (E * (w * w))) by (field; lra). lra.
Qed.
Lemma uu_E : 200 * uu <= 1 / 10000 * E.
Proof. pose proof uu_pos. assert (uu * 1 <= uu * w) by (apply Rmult_le_compat_l; lra). lra. Qed.
Lemma wrist_found m l : Rabs a4 <= 4 -> Rabs a5 <= 4 -> room L bdot z 3 m a4 -> room L bdot z 4 m a5 -> 10 * (E * (w * w)) <= m -> g_subproblem2 A (l3 A H5) (l3 A v4) (l3 A H3) (l3 A H4) = Ok l ->
  exists t4 t5 x4 x5 : b64, In (t4, t5) l /\ g_normalize A b_rem z 3 t4 = Ok (Some x4) /\ g_normalize A b_rem z 4 t5 = Ok (Some x5) /\ bfin x4 /\ bfin x5 /\ Rabs (bval x4) <= 16 /\ Rabs (bval x5) <= 16 /\
    there L bdot z (10 * (E * (w * w))) (bval x4) a4 /\ there L bdot z (4 * (E * w)) (bval x5) a5.
Proof.
  intros B4 B5 R4 R5 ME EQ2. destruct E_rng as ((_ & E1) & E2 & E3 & E4 & E5 & E6). pose proof uu_E as UE. destruct (pair_found l EQ2) as (t4 & t5 & I & F4 & F5 & C4 & C5 & SM5 & SM4).
  destruct (norm_found L bdot z 3 t4 a4 (9 * (E * (w * w))) m F4 ltac:(lra) SM4 B4 ltac:(lra) ltac:(lra) R4) as (x4 & N4 & FX4 & BX4 & SX4).
  destruct (norm_found L bdot z 4 t5 a5 (36 / 10 * (E * w)) m F5 ltac:(lra) SM5 B5 ltac:(lra) ltac:(lra) R5) as (x5 & N5 & FX5 & BX5 & SX5).
  exists t4, t5, x4, x5. split; [exact I|]. split; [exact N4|]. split; [exact N5|]. split; [exact FX4|]. split; [exact FX5|]. split; [exact BX4|]. split; [exact BX5|]. split; [eapply there_weak; [|exact SX4]; lra|eapply there_weak; [|exact SX5]; lra].
Qed.
Lemma rot_back h t u e v : unit3 h -> same_angle e t u -> norm (vsub (rotate h (- t) v) (rotate h (- u) v)) <= e * norm v.
Proof. intros U SA. apply same_moves; [exact U|]. destruct SA as (n & SA). exists (- n)%Z. rewrite opp_IZR. apply Rabs_le_inv in SA. apply Rabs_le. lra. Qed.
Lemma last_near m (x4 x5 t6 : b64) v6 : Rabs a6 <= 4 -> room L bdot z 5 m a6 -> 32 * (E * (w * w)) <= m ->
  norm (vsub (rotate h3 (bval x4) (rotate h4 (bval x5) h5)) u4) <= 416400000 * uu * r -> vc 1 8067 v6 (FactsWrist64.u6 h3 h4 N Q x4 x5) ->
  same_angle (10 * (E * (w * w))) (bval x4) a4 -> same_angle (4 * (E * w)) (bval x5) a5 -> g_subproblem1 A (l3 A H4) (l3 A v6) (l3 A H5) = Ok t6 ->
  exists x6 : b64, g_normalize A b_rem z 5 t6 = Ok (Some x6) /\ bfin x6 /\ Rabs (bval x6) <= 16 /\ there L bdot z (32 * (E * (w * w))) (bval x6) a6.
Proof.
  intros B6 R6 ME D45 V6 SX4 SX5 E6'. pose proof uu_pos as UP. destruct E_rng as ((_ & E1) & E2 & E3 & E4 & E5 & E6). pose proof uu_E as UE.
  destruct (last_raw L bdot HD HA H3 H4 H5 R03 R06 h3 h4 h5 N Q S3 S4 S5 MN MQ P34 P35 r ltac:(lra) x4 x5 D45 _ V6 t6 E6') as (FT6 & BT6 & RS).
  set (u6 := FactsWrist64.u6 h3 h4 N Q x4 x5) in *.
  assert (UX : norm (vsub u6 (rotate h5 a6 h4)) <= D + 10 * (E * (w * w)) + 4 * (E * w)).
  { set (y := mvec Q h4). assert (NY : norm y = 1) by (unfold y; rewrite norm_SO3, (norm_unit _ U4) by apply MQ; reflexivity).
    assert (E1' : u6 = rotate h4 (- bval x5) (rotate h3 (- bval x4) (mvec (mT N) y))).
    { unfold u6, FactsWrist64.u6, FactsWrist64.N5. fold y. rewrite !mT_mmul, !mvec_mmul, !rot_T, !rot_rotate by assumption. reflexivity. }
    assert (E2' : rotate h5 a6 h4 = rotate h4 (- a5) (rotate h3 (- a4) (mvec (mT Na) y))).
    { unfold y. rewrite EXQ, back_a, (PropSub2.turn_back h3 a4) by exact U3. rewrite (PropSub2.turn_back h4 a5) by exact U4. reflexivity. }
    rewrite E1', E2'. set (p := mvec (mT N) y). set (q := mvec (mT Na) y).
    assert (Np : norm p = 1) by (unfold p; rewrite norm_SO3; [exact NY|apply SO3_T; apply MN]).
    pose proof (ND y) as X0. fold p q in X0. rewrite NY, Rmult_1_r in X0.
    pose proof (rot_back h4 (bval x5) a5 _ (rotate h3 (- bval x4) p) U4 SX5) as X1. rewrite PropSub2.turn_norm, Np, Rmult_1_r in X1 by exact U3.
    pose proof (rot_back h3 (bval x4) a4 _ p U3 SX4) as X2. rewrite Np, Rmult_1_r in X2.
    assert (X3 : norm (vsub (rotate h4 (- a5) (rotate h3 (- bval x4) p)) (rotate h4 (- a5) (rotate h3 (- a4) p))) <= 10 * (E * (w * w))) by (rewrite PropMove.rotate_sub by exact U4; exact X2).
    assert (X4 : norm (vsub (rotate h4 (- a5) (rotate h3 (- a4) p)) (rotate h4 (- a5) (rotate h3 (- a4) q))) <= D) by (rewrite PropMove.rotate_sub by exact U4; rewrite PropMove.rotate_sub by exact U3; exact X0).
    rewrite (chain3 _ (rotate h4 (- a5) (rotate h3 (- bval x4) p)) (rotate h4 (- a5) (rotate h3 (- a4) p))). eapply Rle_trans; [apply norm_triangle|]. eapply Rle_trans; [apply Rplus_le_compat_l; apply norm_triangle|]. lra. }
  assert (MV : norm (vsub (rotate h5 (bval t6) h4) (rotate h5 a6 h4)) <= 17 * (E * (w * w))).
  { rewrite (chain2 (rotate h5 (bval t6) h4) u6 (rotate h5 a6 h4)).
    eapply Rle_trans; [apply norm_triangle|]. assert (572295000 * uu * r <= 14 / 10 * E) by (assert (0 < uu * w) by (apply Rmult_lt_0_compat; lra); lra). lra. }
  assert (PP : 1 <= norm (perp h5 h4)).
  { pose proof (perp_sq h5 h4 U5) as X. rewrite (P45 h3 h4 h5 P34 P35) in X. replace (dot h4 h4) with 1 in X by (symmetry; apply U4). pose proof (norm_nonneg (perp h5 h4)). nra. }
  pose proof (moves_same h5 (bval t6) a6 _ 1 h4 U5 ltac:(lra) PP MV ltac:(lra)) as SM.
  assert (SM2 : same_angle (31 * (E * (w * w))) (bval t6) a6) by (eapply same_weak; [|exact SM]; lra).
  destruct (norm_found L bdot z 5 t6 a6 (31 * (E * (w * w))) m FT6 ltac:(lra) SM2 B6 ltac:(lra) ltac:(lra) R6) as (x6 & EN & FX & BX & SX).
  exists x6. split; [exact EN|]. split; [exact FX|]. split; [exact BX|]. eapply there_weak; [|exact SX]. lra.
Qed.
Lemma last_found m l (t4 t5 x4 x5 t6 : b64) : Rabs a6 <= 4 -> room L bdot z 5 m a6 -> 32 * (E * (w * w)) <= m -> g_subproblem2 A (l3 A H5) (l3 A v4) (l3 A H3) (l3 A H4) = Ok l -> In (t4, t5) l ->
  g_normalize A b_rem z 3 t4 = Ok (Some x4) -> g_normalize A b_rem z 4 t5 = Ok (Some x5) -> bfin x4 -> bfin x5 -> Rabs (bval x4) <= 16 -> Rabs (bval x5) <= 16 ->
  same_angle (10 * (E * (w * w))) (bval x4) a4 -> same_angle (4 * (E * w)) (bval x5) a5 ->
  g_subproblem1 A (l3 A H4) (l3 A (g_mv A (g_mm A (v3cols (g_mm A R03 (g_mm A (g_rot A H3 x4) (g_rot A H4 x5)))) R06) H4)) (l3 A H5) = Ok t6 ->
  exists x6 : b64, g_normalize A b_rem z 5 t6 = Ok (Some x6) /\ bfin x6 /\ Rabs (bval x6) <= 16 /\ there L bdot z (32 * (E * (w * w))) (bval x6) a6.
Proof.
  intros B6 R6 ME EQ2 I N4 N5 F4 F5 B4 B5 SX4 SX5 E6'. destruct E_rng as ((_ & E1) & E2 & E3 & E4 & E5 & E6).
  pose proof (wrist_dir L bdot HD HL HA H3 H4 H5 R03 R06 h3 h4 h5 N Q S3 S4 S5 MN MQ P34 P35 r ltac:(lra) off z l t4 t5 x4 x5 EQ2 I N4 N5 F4 F5 ltac:(lra) ltac:(lra)) as D45.
  pose proof (v6_ok L bdot HD HL HT H3 H4 R03 R06 h3 h4 N Q S3 S4 MN MQ x4 x5 F4 F5) as V6.
  exact (last_near m x4 x5 t6 _ B6 R6 ME D45 V6 SX4 SX5 E6').
Qed.
End Wrist.
