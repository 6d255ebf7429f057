(** The angles of an exact solution among those that ur_invkin tries in binary64, joint by joint. *)
From Coq Require Import Reals ZArith List Bool Lra Lia Psatz.
From Flocq Require Import Core.Core IEEE754.BinarySingleNaN.
From Verif Require Import LinAlg RealAux Py FactsReal FactsLinAlg ModelRot SpecRot FactsRot FactsNorm SpecSub FactsSub ModelInvkin ModelFloat ModelFloat2 ModelFloat3 ModelFloat6 ModelFloat9 ModelFloat10 ModelFloat11 ModelFloat12 SpecRound FactsRound FactsB64 FactsExact FactsTrack SpecArc SpecSub4 SpecReach SpecRpy FactsRpy PropPi FactsIk64 FactsPath64 FactsJoint64 FactsArm64 FactsWrist64 FactsRobot64 FactsUr64 FactsFind64 FactsSeek64.
From Verif Require FactsIkGeo FactsAngle PropNorm PropReach PropReach2 PropSub4 PropSub2 PropMove.
Import ListNotations.
Open Scope R_scope.

(* ---- the search, forwards ---- *)
Section Search.
Context (A : arith).
Notation num := (num A).
Context (nasin : num -> num) (nrem : num -> num -> num) (argsort : list num -> list nat).
Lemma ur_find H0 H1 H2 H3 H4 H5 P0 P1 P2 P3 P4 P5 P6 r pose last sols (t1 q1 : num) : grH r = [H0; H1; H2; H3; H4; H5] -> grP r = [P0; P1; P2; P3; P4; P5; P6] ->
  g_ur_invkin A nasin nrem argsort r pose last = Ok sols ->
  let z := GN (match grlower r, grupper r with Some l, Some u => Some (l, u) | _, _ => None end) last in
  let P56 := g_vadd A P6 P5 in let R06 := gR (g_unapply_aux A r pose) in let pT := gp (g_unapply_aux A r pose) in
  sorts A argsort z -> close_by A z 0 q1 -> In t1 (g_subproblem4 A nasin (g_ey A) (w_v A P56 R06 pT) (g_vneg A H0) (w_d1 A (g_vadd A P1 P2) P3 P4)) -> g_normalize A nrem z 0 t1 = Ok (Some q1) ->
  exists Q45, g_subproblem2 A (l3 A H5) (l3 A (u_v4 A H0 H5 R06 q1)) (l3 A H3) (l3 A H4) = Ok Q45 /\
  forall q24 q5, In (q24, q5) Q45 ->
  exists Q3, g_subproblem3 A (l3 A P3) (l3 A P2) (l3 A H2) (l_norm A (l3 A (u_p23 A H0 H3 P0 P1 P4 P56 R06 pT q1 q24))) = Ok Q3 /\
  forall t3 q3, In t3 Q3 -> g_normalize A nrem z 2 t3 = Ok (Some q3) -> close_by A z 2 q3 ->
  exists t2, g_subproblem1 A (l3 A (w_p2 A H2 P2 P3 q3)) (l3 A (u_v2 A H0 H3 P0 P1 P4 P56 R06 pT q1 q24)) (l3 A H1) = Ok t2 /\
  forall q2, g_normalize A nrem z 1 t2 = Ok (Some q2) -> forall q4, g_normalize A nrem z 3 (nsub A (nsub A q24 q2) q3) = Ok (Some q4) ->
  exists t6, g_subproblem1 A (l3 A H4) (l3 A (u_v6 A H0 H3 H4 R06 q1 q24 q5)) (l3 A H5) = Ok t6 /\
  forall q6, g_normalize A nrem z 5 t6 = Ok (Some q6) -> In [q1; q2; q3; q4; q5; q6] sols.
Proof.
  intros EH EP E z P56 R06 pT SO CB1 I1 N1. unfold g_ur_invkin in E. cbv zeta in E. rewrite EH, EP in E. do 3 (apply bind_inv in E; destruct E as (? & _ & E)). cbn [index nth_error bind] in E. fold z R06 pT P56 in E.
  apply bind_inv in E. destruct E as (L1 & EN & E). apply bind_inv in E. destruct E as (ss & ES & E).
  pose proof (call1_has _ _ _ _ _ _ _ _ _ SO CB1 EN I1 N1) as IQ1. destruct (flat_map_sub _ _ _ _ ES IQ1) as (s1 & E1 & S1).
  unfold g_ur_arm in E1. cbn [index nth_error bind] in E1. cbv zeta in E1. apply bind_inv in E1. destruct E1 as (Q45 & E45 & E1).
  exists Q45. split; [exact E45|]. intros q24 q5 I45. destruct (flat_map_sub _ _ _ _ E1 I45) as (s2 & E2 & S2).
  unfold g_ur_inner in E2. cbn [index nth_error bind] in E2. cbv zeta in E2. apply bind_inv in E2. destruct E2 as (Q3 & E3 & E2). apply bind_inv in E2. destruct E2 as (N3 & EN3 & E2).
  exists Q3. split; [exact E3|]. intros t3 q3 I3 NQ3 CB3. pose proof (call1_has _ _ _ _ _ _ _ _ _ SO CB3 EN3 I3 NQ3) as IQ3. destruct (flat_map_sub _ _ _ _ E2 IQ3) as (s3 & E4 & S3).
  apply bind_inv in E4. destruct E4 as (t2 & ET2 & E4). exists t2. split; [exact ET2|]. intros q2 NQ2 q4 NQ4. rewrite NQ2 in E4. cbn [bind] in E4. rewrite NQ4 in E4. cbn [bind] in E4.
  apply bind_inv in E4. destruct E4 as (t6 & ET6 & E4). exists t6. split; [exact ET6|]. intros q6 NQ6. rewrite NQ6 in E4. cbn [bind] in E4. injection E4 as <-. apply (sort_has A argsort z last ss sols _ SO eq_refl E). apply S1, S2, S3. left. reflexivity.
Qed.
End Search.

(* ---- an angle of several turns ---- *)
Lemma turn_fin' (t : b64) k : bfin t -> Rabs (bval t) <= 64 -> (k = -1 \/ k = 1)%Z -> bfin (b_add t (b_mul (b_mul (b_lit 2 1) b_pi) (b_ofZ k))).
Proof.
  intros F B K. assert (Z : bfin (b_mul (b_mul (b_lit 2 1) b_pi) (b_ofZ k)) /\ Rabs (bval (b_mul (b_mul (b_lit 2 1) b_pi) (b_ofZ k))) <= 8).
  { destruct K as [-> | ->]; (split; [reflexivity|]; apply Rabs_le; vm_compute; lra). }
  destruct Z as [FZ BZ]. destruct (add_range t _ F FZ) as [FX _]; [|exact FX]. apply (PropSub4.rnd_room _ 7); [lia|]. change (bpow radix2 7) with 128. apply Rabs_le_inv in B, BZ. apply Rabs_le. lra.
Qed.
Lemma norm_far L dot (z : gnormalizer (b64_arith L dot)) j (t : b64) a e m : bfin t -> Rabs (bval t) <= 64 -> same_angle e (bval t) a -> Rabs a <= 4 -> e <= 1 / 4 -> e + 520 * uu <= m -> room L dot z j m a ->
  (gnlimits z <> None -> Rabs (bval t) + Rabs a + e < 4 * PI) ->
  exists x : b64, g_normalize (b64_arith L dot) b_rem z j t = Ok (Some x) /\ there L dot z (e + 520 * uu) (bval x) a.
Proof.
  intros F B SA BA E4 EM (NL & RM) CL. pose proof uu_pos as UP. pose proof uu_small as US. pose proof pi_lo as PL. pose proof pi_hi as PH.
  set (lu := match gnlimits z with None => Ok None | Some (ls, us) => let* l := index ls j in let* u := index us j in Ok (Some (l, u)) end).
  assert (G : forall o s, g_start (b64_arith L dot) o t = Some s -> bfin s -> Rabs (bval s) <= 72 /\ same_angle (e + 120 * uu) (bval s) a).
  { intros o s ES Fs. destruct (PropNorm.start_turns L dot o t s ES Fs) as (_ & k & K1 & KB).
    assert (KB' : Rabs (bval s - (bval t + 2 * PI * IZR k)) <= 120 * uu). { eapply Rle_trans; [exact KB|]. rewrite (Rmult_comm 120). apply Rmult_le_compat_l; lra. }
    split. { assert (Rabs (2 * PI * IZR k) <= 7) by (rewrite Rabs_mult, (Rabs_right (2 * PI)) by lra; nra). apply Rabs_le_inv in KB', B, H. apply Rabs_le. lra. }
    destruct SA as (n & SA). exists (n + k)%Z. rewrite plus_IZR. apply Rabs_le_inv in SA, KB'. apply Rabs_le. lra. }
  assert (AF : forall o s, g_start (b64_arith L dot) o t = Some s -> bfin s -> match o with None => True | Some (l, u) => bfin l /\ bfin u /\ bval l + m <= a <= bval u - m end ->
    exists x : b64, match gnlast z with
    | None => Ok (Some s)
    | Some last => let* lj := index last j in
        match g_turns_to (b64_arith L dot) b_rem lj s with
        | None | Some 0%Z => Ok (Some s)
        | Some n =>
            match o with
            | None => Ok (Some (b_add s (b_mul (b_mul (b_lit 2 1) b_pi) (b_ofZ n))))
            | Some (l, u) =>
                match filter (g_inside (b64_arith L dot) l u) (map (fun m => b_add s (b_mul (b_mul (b_lit 2 1) b_pi) (b_ofZ m))) (countdown n)) with
                | x :: _ => Ok (Some x)
                | [] => Err IndexError
                end
            end
        end
    end = Ok (Some x) /\ there L dot z (e + 520 * uu) (bval x) a).
  { intros o s ES Fs LU. destruct (G o s ES Fs) as (Bs & n & Sn). unfold there. destruct (gnlast z) as [last|].
    - destruct NL as (lj & EJ & FJ & DJ). destruct (finish L dot last j lj o s a (e + 120 * uu) 72 m (- n)%Z EJ FJ DJ BA Fs Bs) as (x & EX & FX & DX); try lra; try assumption.
      { rewrite opp_IZR. apply Rabs_le_inv in Sn. apply Rabs_le. lra. }
      exists x. split; [exact EX|]. split; [|intros _; lra]. exists 0%Z. apply Rabs_le_inv in DX. apply Rabs_le. lra.
    - exists s. split; [reflexivity|]. split; [|intros X; destruct (X eq_refl)]. apply (same_weak (e + 120 * uu)); [lra|]. exists n. exact Sn. }
  unfold g_normalize. fold lu. destruct (gnlimits z) as [[ls us]|] eqn:EL.
  - destruct RM as (l & u & E1 & E2 & Fl & Fu & R1 & R2). unfold lu, index. rewrite E1, E2. cbn [bind].
    destruct (g_start (b64_arith L dot) (Some (l, u)) t) as [s|] eqn:ES.
    + assert (FS : bfin s) by (destruct (PropNorm.start_form _ _ _ _ ES) as [-> | (k & KK & ->)]; [exact F|exact (turn_fin' t k F B KK)]).
      destruct (AF _ _ ES FS (conj Fl (conj Fu (conj R1 R2)))) as (x & EX & RX). exists x. split; [|exact RX].
      match goal with |- match ?q with _ => _ end = _ => replace q with (Some s) by (symmetry; exact ES) end. exact EX.
    + exfalso. unfold g_start in ES. cbv zeta in ES. specialize (CL ltac:(discriminate)).
      assert (IN : forall y : b64, bfin y -> bval l < bval y < bval u -> g_inside (b64_arith L dot) l u y = true).
      { intros y Fy [Y1 Y2]. unfold g_inside. cbn [nlt b64_arith]. rewrite (proj2 (PropNorm.b_lt_val l y Fl Fy) Y1), (proj2 (PropNorm.b_lt_val y u Fy Fu) Y2). reflexivity. }
      assert (IK : forall k, (k = -1 \/ k = 1)%Z -> Rabs (bval t + 2 * PI * IZR k - a) <= e -> g_inside (b64_arith L dot) l u (nadd (b64_arith L dot) (nmul (b64_arith L dot) (g_turn (b64_arith L dot)) (nofZ (b64_arith L dot) k)) t) = true).
      { intros k K H. change (nadd (b64_arith L dot)) with b_add. rewrite PropNorm.b_add_comm. pose proof (turn_fin' t k F B K) as FK. apply IN; [exact FK|].
        destruct (PropNorm.b_turns t k FK) as [_ BT]. change (nmul (b64_arith L dot) (g_turn (b64_arith L dot)) (nofZ (b64_arith L dot) k)) with (b_mul (b_mul (b_lit 2 1) b_pi) (b_ofZ k)).
        set (y := bval (b_add t _)) in *. assert (BT' : Rabs (y - (bval t + 2 * PI * IZR k)) <= 119 * uu).
        { eapply Rle_trans; [exact BT|]. rewrite (Rmult_comm 119). apply Rmult_le_compat_l; [lra|]. assert (Rabs (IZR k) <= 1) by (destruct K as [-> | ->]; apply Rabs_le; lra). lra. }
        apply Rabs_le_inv in BT', H. lra. }
      destruct SA as (n & SA). assert (NB : (-1 <= n <= 1)%Z).
      { assert (X : Rabs (2 * PI * IZR n) < 4 * PI). { replace (2 * PI * IZR n) with (bval t + (- a + - (bval t - a - 2 * PI * IZR n))) by ring. eapply Rle_lt_trans; [apply Rabs_triang|]. eapply Rle_lt_trans; [apply Rplus_le_compat_l; apply Rabs_triang|]. rewrite !Rabs_Ropp. lra. }
        apply Rabs_def2 in X. assert (BB : -2 < IZR n < 2) by (split; apply (Rmult_lt_reg_l (2 * PI)); lra). destruct BB as [B1 B2]. apply lt_IZR in B1. apply lt_IZR in B2. lia. }
      assert (NC : (n = 0 \/ n = 1 \/ n = -1)%Z) by lia. destruct NC as [-> | [-> | ->]].
      * rewrite IN in ES; [discriminate ES|exact F|]. apply Rabs_le_inv in SA. lra.
      * rewrite (IK (-1)%Z) in ES; [|auto|apply Rabs_le_inv in SA; apply Rabs_le; lra]. revert ES; match goal with |- (if ?b then _ else _) = _ -> _ => destruct b end; discriminate.
      * rewrite (IK 1%Z) in ES; [|auto|apply Rabs_le_inv in SA; apply Rabs_le; lra]. revert ES; repeat match goal with |- (if ?b then _ else _) = _ -> _ => destruct b end; discriminate.
  - unfold lu. cbn [bind g_start]. exact (AF None t eq_refl F I).
Qed.
Lemma sub_near (x y : b64) b : bfin x -> bfin y -> b <= 100 -> Rabs (bval x - bval y) <= b -> bfin (b_sub x y) /\ Rabs (bval (b_sub x y) - (bval x - bval y)) <= uu * (b + 1).
Proof.
  intros FX FY B100 B. destruct (sub_range x y FX FY) as [F V]. { apply (PropSub4.rnd_room _ 7); [lia|]. change (bpow radix2 7) with 128. lra. }
  split; [exact F|]. rewrite V. pose proof (rnd_err (bval x - bval y)) as E. pose proof PropSub4.ee_small' as ES. pose proof uu_pos as UP.
  eapply Rle_trans; [exact E|]. assert (uu * Rabs (bval x - bval y) <= uu * b) by (apply Rmult_le_compat_l; lra). lra.
Qed.
Lemma same_add e1 e2 a b c d : same_angle e1 a b -> same_angle e2 c d -> same_angle (e1 + e2) (a - c) (b - d).
Proof. intros (n & H) (k & K). exists (n - k)%Z. rewrite minus_IZR. apply Rabs_le_inv in H, K. apply Rabs_le. lra. Qed.
Lemma same_err e1 e2 a a' b : Rabs (a' - a) <= e1 -> same_angle e2 a b -> same_angle (e1 + e2) a' b.
Proof. intros H (n & K). exists n. apply Rabs_le_inv in H, K. apply Rabs_le. lra. Qed.
Lemma ca_form a b c d p q : vsub (vsub (vsub (vsub a p) q) b) (vsub (vsub (vsub c p) q) d) = vsub (vsub a c) (vsub b d). Proof. la_ring. Qed.

Section Core.
Context (L : libm) (bdot : list b64 -> list b64 -> b64) (f : b64 -> b64) (HD : In bdot b_dots) (HL : libm_ok L (bpow radix2 (-52))) (HT : libm_total L)
  (HA : libm_arc_ok L (8 * uu)) (HG : libm_angle_ok L (bpow radix2 (-50))) (HF : libm_asin_ok f (bpow radix2 (-50))).
Notation A := (b64_arith L bdot).
Notation vval := (SpecRound.vval (A := b64_arith L bdot) bval).
Notation vfin := (SpecRound.vfin (A := b64_arith L bdot) bfin).
Notation mc := (FactsPath64.mc L bdot).
Notation vc := (FactsPath64.vc L bdot).
Context (H0 H1 H2 H3 H4 H5 P0 P1 P2 P3 P4 P6 : v3 b64) (R06 : m3 b64) (pT : v3 b64) (h0 h h4 : vec3) (Q : mat3) (M : R).
Context (S0 : stored_axis3 H0 h0) (S1 : stored_axis3 H1 h) (S2 : stored_axis3 H2 h) (S3 : stored_axis3 H3 h) (S4 : stored_axis3 H4 h4) (S5 : stored_axis3 H5 h) (MQ : mc 2200 R06 Q).
Context (F0 : vfin P0) (F1 : vfin P1) (F2 : vfin P2) (F3 : vfin P3) (F4 : vfin P4) (F6 : vfin P6) (FT : vfin pT).
Notation p0 := (vval P0). Notation p1 := (vval P1). Notation p2 := (vval P2). Notation p3 := (vval P3). Notation p4 := (vval P4). Notation p6 := (vval P6). Notation T := (vval pT).
Context (RM : rg 150 M) (M1 : 1 <= M) (SZ : 10011 / 10000 * (norm p0 + norm p1 + norm p2 + norm p3 + norm p4 + norm p6 + norm T) <= M).
Context (EH : h = ey \/ h = vneg ey) (O0 : on_axis h0 p0) (Y0 : vy p0 = 0) (P34 : dot h h4 = 0).
Notation cv := (FactsArm64.cv L bdot P6 pT Q).
Notation c2 := (FactsArm64.c2 L bdot P2 P3 h).
Notation c23 := (FactsUr64.c23 L bdot P0 P1 P4 P6 pT h0 h Q).
Definition ca (x1 x24 : R) : vec3 := vsub (vsub (vsub (rotate h0 (- x1) cv) p0) p1) (rotate h x24 p4).
Context (a1 a2 a3 a5 a6 s rho w : R) (R1 : 1 <= rho <= 32) (W1 : 1 <= w) (RW : rho * rho * (w * w * w) <= 16384).
Context (EX : norm (vsub (rotate h a2 (c2 a3)) (ca a1 s)) <= 3990 * (uu * M)).
Context (EXQ : forall v, mvec Q v = rotate h0 a1 (rotate h s (rotate h4 a5 (rotate h a6 v)))).
Context (K1 : M <= rho * Rabs (turn_rate ey cv (vneg h0) a1)) (K3 : M * M <= rho * Rabs (reach_rate h p3 p2 a3)) (K2 : M <= rho * norm (perp ey (c2 a3))) (KW : 1 <= w * Rabs (sin a5)).
Context (z : gnormalizer A).
Notation W := (w * w * w).
Let MP : 0 < M := FactsUr64.MP M RM.
Let UP := uu_pos.
Let U0 : unit3 h0 := proj1 S0.
Let UH : unit3 h := proj1 S1.
Let U4 : unit3 h4 := proj1 S4.
Ltac nn := pose proof (norm_nonneg p0); pose proof (norm_nonneg p1); pose proof (norm_nonneg p2); pose proof (norm_nonneg p3); pose proof (norm_nonneg p4); pose proof (norm_nonneg p6); pose proof (norm_nonneg T).

Lemma rw_facts : 1 <= rho * rho /\ 1 <= W /\ w * w <= W /\ w <= W /\ W <= rho * rho * W /\ rho * W <= rho * rho * W /\ rho * rho <= rho * rho * W /\ w <= 32 /\ 1 <= rho * W.
Proof.
  assert (A1 : 1 * 1 <= rho * rho) by (apply Rmult_le_compat; lra). assert (A2 : w * 1 <= w * w) by (apply Rmult_le_compat_l; lra). assert (A3 : w * w * 1 <= W) by (apply Rmult_le_compat_l; lra).
  assert (A4 : 1 * W <= rho * rho * W) by (apply Rmult_le_compat_r; lra). assert (A5 : rho * W <= rho * rho * W) by (apply Rmult_le_compat_r; [lra|]; assert (rho * 1 <= rho * rho) by (apply Rmult_le_compat_l; lra); lra).
  assert (A6 : rho * rho * 1 <= rho * rho * W) by (apply Rmult_le_compat_l; lra). assert (A7 : 1 * 1 <= rho * W) by (apply Rmult_le_compat; lra).
  assert (A8 : w <= 32). { destruct (Rle_lt_dec w 32) as [G|G]; [exact G|exfalso]. assert (32 * 32 <= w * w) by (apply Rmult_le_compat; lra). assert (32 * 32 * 32 <= W) by (apply Rmult_le_compat; lra). lra. }
  repeat split; lra.
Qed.
Lemma ca_turn x1 x24 : rotate h0 (- x1) (c23 x1 x24) = ca x1 x24.
Proof.
  assert (B' : forall v, rotate h0 (- x1) (rotate h0 x1 v) = v) by (intros v; apply PropSub2.turn_back; exact U0).
  unfold ca, FactsUr64.c23. rewrite !PropSub2.turn_sub, !B', (turn_axis h0 _ p0 U0 O0). reflexivity.
Qed.
Lemma ca_norm x1 x24 : norm (ca x1 x24) = norm (c23 x1 x24).
Proof. rewrite <- ca_turn. apply PropSub2.turn_norm. exact U0. Qed.
Lemma ca_le x1 x24 : 1001 / 1000 * norm (ca x1 x24) <= M.
Proof. rewrite ca_norm. pose proof (c23_le L bdot H0 H1 P0 P1 P4 P6 R06 pT h0 h Q S0 S1 MQ x1 x24). nn. lra. Qed.
Lemma ca_moves x1 x24 e1 e : same_angle e1 x1 a1 -> same_angle e x24 s -> norm (vsub (ca x1 x24) (ca a1 s)) <= (e1 + e) * M.
Proof.
  intros SA SB. unfold ca. rewrite ca_form. nn. pose proof (norm_nonneg cv) as CN. pose proof (ucv_le L bdot P6 R06 pT Q MQ) as CL.
  assert (E0 : 0 <= e1). { destruct SA as (n & SA). pose proof (Rabs_pos (x1 - a1 - 2 * PI * IZR n)). lra. }
  assert (E0' : 0 <= e). { destruct SB as (n & SB). pose proof (Rabs_pos (x24 - s - 2 * PI * IZR n)). lra. }
  eapply Rle_trans; [apply norm_vsub_le|]. rewrite Rmult_plus_distr_r. apply Rplus_le_compat.
  - eapply Rle_trans; [apply rot_back; [exact U0|exact SA]|]. apply Rmult_le_compat_l; lra.
  - eapply Rle_trans; [apply same_moves; [exact UH|exact SB]|]. apply Rmult_le_compat_l; lra.
Qed.
Lemma v12_ok : vfin (g_vadd A P1 P2) /\ norm (vsub (vval (g_vadd A P1 P2)) (vadd p1 p2)) <= 2 * (uu * M) /\ norm (vval (g_vadd A P1 P2)) <= norm p1 + norm p2 + 2 * (uu * M) /\
  1001 / 1000 * (norm p0 + norm (vval (g_vadd A P1 P2)) + norm p3 + norm p4 + norm p6 + norm T) <= M.
Proof.
  nn. pose proof uu_val' as UV. assert (UM' : uu * M <= 12 / 100000000000000000 * M) by (apply Rmult_le_compat_r; [lra|rewrite UV; lra]).
  assert (V12 : vc M (0 + 0 + 2) (g_vadd A P1 P2) (vadd p1 p2)) by (pose proof (norm_triangle p1 p2); apply vc_add; try assumption; try lra; [apply (FactsUr64.RM' M RM); lia|apply vc_exact; [assumption|lra]|apply vc_exact; [assumption|lra]]).
  destruct V12 as (F12 & E12 & _). replace (0 + 0 + 2) with 2 in E12 by ring. set (v12 := vval (g_vadd A P1 P2)) in *.
  assert (N12 : norm v12 <= norm p1 + norm p2 + 2 * (uu * M)) by (pose proof (norm_dist_le v12 (vadd p1 p2)) as D; apply Rabs_le_inv in D; pose proof (norm_triangle p1 p2); lra).
  split; [exact F12|]. split; [exact E12|]. split; [exact N12|]. lra.
Qed.
Lemma ur_base m : Rabs a1 <= 4 -> room L bdot z 0 m a1 -> 32700 * uu * rho <= m ->
  exists t1 x1 : b64, In t1 (g_subproblem4 A f (g_ey A) (w_v A P6 R06 pT) (g_vneg A H0) (w_d1 A (g_vadd A P1 P2) P3 P4)) /\ g_normalize A b_rem z 0 t1 = Ok (Some x1) /\ bfin x1 /\ Rabs (bval x1) <= 16 /\ there L bdot z (32700 * uu * rho) (bval x1) a1.
Proof.
  destruct v12_ok as (F12 & E12 & _ & SZ12).
  apply (base_near L bdot f HD HL HG HF H0 P0 (g_vadd A P1 P2) P3 P4 P6 R06 pT h0 Q M S0 MQ F12 F3 F4 F6 FT RM SZ12 a1 rho R1); [|exact K1].
  set (v12 := vval (g_vadd A P1 P2)) in *. pose proof (near_dot ey (rotate h a2 (c2 a3)) (ca a1 s)) as N. rewrite (norm_unit _ ey_unit), Rmult_1_l in N. apply (fun H => Rle_trans _ _ _ H EX) in N. rewrite (flat h a2 _ EH) in N. unfold FactsArm64.c2, ca in N. rewrite dot_vadd_r, (flat h) in N by exact EH.
  pose proof (near_dot ey v12 (vadd p1 p2)) as D. rewrite (norm_unit _ ey_unit), Rmult_1_l in D.
  assert (Z0 : dot ey p0 = 0) by (unfold dot, ey; cbn [vx vy vz]; rewrite Y0; ring).
  rewrite !dot_vsub_r, (flat h), Z0 in N by exact EH. unfold displacement. rewrite turn_neg, !dot_vadd_r in *. apply Rabs_le_inv in N. apply Rabs_le_inv in D. apply Rabs_le. lra.
Qed.

(* ---- the fifth joint and the sum of the second to fourth ---- *)
Section Wrist.
Context (x1 : b64) (FX1 : bfin x1) (SX1 : same_angle (32700 * uu * rho) (bval x1) a1).
Notation N := (rot h0 (bval x1)).
Notation D := (32700 * uu * rho).
Notation E := (D + 421000000 * uu * w).
Lemma uw_facts : 0 < uu * w /\ uu * w <= uu * W /\ uu * (w * w) <= uu * W /\ uu <= uu * w /\ 0 <= D /\ 0 < E <= 422046400 * (uu * w) /\ E * w <= 422046400 * (uu * (w * w)) /\ E * (w * w) <= 422046400 * (uu * W) /\ 256 * (E * (w * w)) <= 1 /\ uu * W <= uu * 16384.
Proof.
  destruct rw_facts as (A1 & A2 & A3 & A4 & A5 & A6 & A7 & A8 & A9). pose proof uu_val' as UV.
  assert (B0 : 0 < uu * w) by (apply Rmult_lt_0_compat; lra). assert (B1 : uu * w <= uu * W) by (apply Rmult_le_compat_l; lra). assert (B2 : uu * (w * w) <= uu * W) by (apply Rmult_le_compat_l; lra). assert (B3 : uu * 1 <= uu * w) by (apply Rmult_le_compat_l; lra).
  assert (B4 : 0 < uu * rho <= uu * 32) by (split; [apply Rmult_lt_0_compat; lra|apply Rmult_le_compat_l; lra]). assert (B5 : 0 < E <= 422046400 * (uu * w)) by lra.
  assert (B6 : E * w <= 422046400 * (uu * (w * w))) by (replace (422046400 * (uu * (w * w))) with (422046400 * (uu * w) * w) by ring; apply Rmult_le_compat_r; lra).
  assert (B7 : E * (w * w) <= 422046400 * (uu * W)) by (replace (422046400 * (uu * W)) with (422046400 * (uu * w) * (w * w)) by ring; apply Rmult_le_compat_r; [apply Rmult_le_pos; lra|lra]).
  assert (B8 : uu * W <= uu * 16384) by (apply Rmult_le_compat_l; lra).
  assert (B9 : 256 * (E * (w * w)) <= 1) by (rewrite UV in *; lra). repeat split; lra.
Qed.
Lemma M01 : mc 3475 (w_R01 A H0 x1) N.
Proof. eapply mc_weak; [|unfold w_R01; apply rot_mc; eassumption]. lra. Qed.
Lemma SNa : is_SO3 (rot h0 a1). Proof. apply rot_SO3. exact U0. Qed.
Lemma EXN v : mvec Q v = mvec (rot h0 a1) (rotate h s (rotate h4 a5 (rotate h a6 v))).
Proof. rewrite rot_rotate by exact U0. apply EXQ. Qed.
Lemma ND v : norm (vsub (mvec (mT N) v) (mvec (mT (rot h0 a1)) v)) <= D * norm v.
Proof. rewrite !rot_T, !rot_rotate by exact U0. apply rot_back; [exact U0|exact SX1]. Qed.
Lemma ur_pair l : g_subproblem2 A (l3 A H5) (l3 A (u_v4 A H0 H5 R06 x1)) (l3 A H3) (l3 A H4) = Ok l ->
  exists t4 t5 : b64, In (t4, t5) l /\ bfin t4 /\ bfin t5 /\ Rabs (bval t4) <= 16 / 5 /\ same_angle (36 / 10 * (E * w)) (bval t5) a5 /\ same_angle (9 * (E * (w * w))) (bval t4) s /\
    norm (vsub (rotate h (bval t4) (rotate h4 (bval t5) h)) (u4 h N Q)) <= 416400000 * uu * (101 / 100 * w).
Proof.
  intros EQ. destruct uw_facts as (_ & _ & _ & _ & D0 & _ & _ & _ & EW & _). destruct rw_facts as (_ & _ & _ & _ & _ & _ & _ & W32 & _).
  destruct (pair_found L bdot HD HL HA H3 H4 H5 (w_R01 A H0 x1) R06 h h4 h N Q S3 S4 S5 M01 MQ P34 (or_introl eq_refl) (rot h0 a1) SNa s a5 a6 D w D0 (conj W1 W32) KW EXN ND EW l EQ) as (t4 & t5 & I & F4' & F5 & B4 & B5 & SM5 & SM4).
  exists t4, t5. split; [exact I|]. split; [exact F4'|]. split; [exact F5|]. split; [exact B4|]. split; [exact SM5|]. split; [exact SM4|].
  pose proof (off L bdot H3 H4 H5 R06 h h4 h N Q S3 S4 S5 MQ P34 (or_introl eq_refl) (rot h0 a1) SNa s a5 a6 D w D0 (conj W1 W32) KW EXN ND EW) as OFF.
  destruct (wrist_raw L bdot HD HL HA H3 H4 H5 (w_R01 A H0 x1) R06 h h4 h N Q S3 S4 S5 M01 MQ P34 (or_introl eq_refl) (101 / 100 * w) ltac:(lra) OFF l t4 t5 EQ I) as (_ & _ & _ & _ & WD).
  eapply Rle_trans; [exact WD|]. apply Rmult_le_compat_r; [lra|]. lra.
Qed.
Lemma ur_last m (x24 x5 t6 : b64) : bfin x24 -> bfin x5 -> Rabs a6 <= 4 -> room L bdot z 5 m a6 -> 32 * (E * (w * w)) <= m ->
  same_angle (36 / 10 * (E * w)) (bval x5) a5 -> same_angle (9 * (E * (w * w))) (bval x24) s -> norm (vsub (rotate h (bval x24) (rotate h4 (bval x5) h)) (u4 h N Q)) <= 416400000 * uu * (101 / 100 * w) ->
  g_subproblem1 A (l3 A H4) (l3 A (u_v6 A H0 H3 H4 R06 x1 x24 x5)) (l3 A H5) = Ok t6 ->
  exists x6 : b64, g_normalize A b_rem z 5 t6 = Ok (Some x6) /\ there L bdot z (32 * (E * (w * w))) (bval x6) a6.
Proof.
  intros FX24 FX5 B6 RO ME SX5 SX24 D45 E6. destruct uw_facts as (_ & _ & _ & _ & D0 & E0 & _ & _ & EW & _). destruct rw_facts as (_ & _ & _ & _ & _ & _ & _ & W32 & _).
  assert (EW0 : 0 <= E * w) by (apply Rmult_le_pos; lra). assert (EW2 : 0 <= E * (w * w)) by (apply Rmult_le_pos; [lra|apply Rmult_le_pos; lra]).
  destruct (last_near L bdot HD HA H3 H4 H5 (w_R01 A H0 x1) R06 h h4 h N Q S3 S4 S5 M01 MQ P34 (or_introl eq_refl) (rot h0 a1) SNa s a5 a6 D w D0 (conj W1 W32) EXN ND z EW m x24 x5 t6 (u_v6 A H0 H3 H4 R06 x1 x24 x5)) as (x6 & N6 & _ & _ & SX6); try assumption.
  - exact (u_v6_ok L bdot HD HL HT H0 H3 H4 R06 h0 h h4 Q S0 S3 S4 MQ x1 x24 x5 FX1 FX24 FX5).
  - eapply same_weak; [|exact SX24]. lra.
  - eapply same_weak; [|exact SX5]. lra.
  - exists x6. split; assumption.
Qed.
End Wrist.

(* ---- the elbow and the shoulder ---- *)
Lemma ur_perps : M <= 1048576 * norm (perp h p2) /\ M <= 1048576 * norm (perp h p3).
Proof.
  nn. pose proof (rate_perp h p3 p2 a3 UH) as X. pose proof (FactsTrack.perp_le h p2 UH) as Y2. pose proof (FactsTrack.perp_le h p3 UH) as Y3. set (x2 := norm (perp h p2)) in *. set (x3 := norm (perp h p3)) in *.
  assert (x20 : 0 <= x2) by apply norm_nonneg. assert (x30 : 0 <= x3) by apply norm_nonneg.
  assert (K : M * M <= 64 * (x2 * x3)). { eapply Rle_trans; [exact K3|]. apply Rle_trans with (rho * (2 * (x2 * x3))); [apply Rmult_le_compat_l; lra|]. assert (0 <= x2 * x3) by (apply Rmult_le_pos; assumption). assert (rho * (2 * (x2 * x3)) <= 32 * (2 * (x2 * x3))) by (apply Rmult_le_compat_r; lra). lra. }
  assert (P2' : norm p2 <= M) by lra. assert (P3' : norm p3 <= M) by lra.
  split; apply (Rmult_le_reg_r M); try exact MP.
  - assert (x2 * x3 <= x2 * M) by (apply Rmult_le_compat_l; lra). assert (0 <= x2 * M) by (apply Rmult_le_pos; lra). lra.
  - assert (x2 * x3 <= M * x3) by (apply Rmult_le_compat_r; lra). assert (0 <= M * x3) by (apply Rmult_le_pos; lra). lra.
Qed.
Section Elbow.
Context (x1 x24 : b64) (FX1 : bfin x1) (FX24 : bfin x24) (SX1 : same_angle (32700 * uu * rho) (bval x1) a1) (SX24 : same_angle (3798500000 * (uu * W)) (bval x24) s).
Notation rW := (uu * (rho * W)).
Notation rrW := (uu * (rho * rho * W)).
Lemma ca_near : norm (vsub (ca (bval x1) (bval x24)) (ca a1 s)) <= 3799600000 * (uu * W) * M.
Proof.
  eapply Rle_trans; [exact (ca_moves _ _ _ _ SX1 SX24)|]. apply Rmult_le_compat_r; [lra|]. destruct rw_facts as (_ & A2 & _). assert (uu * 1 <= uu * W) by (apply Rmult_le_compat_l; lra). assert (uu * rho <= uu * 32) by (apply Rmult_le_compat_l; lra). lra.
Qed.
Lemma rrW_le : 0 < rW /\ rW <= rrW /\ rrW <= uu * 16384 /\ uu <= rW /\ uu * W <= rW /\ 0 < uu * W.
Proof.
  destruct rw_facts as (A1 & A2 & A3 & A4 & A5 & A6 & A7 & A8 & A9). assert (rW <= rrW) by (apply Rmult_le_compat_l; lra). assert (rrW <= uu * 16384) by (apply Rmult_le_compat_l; lra). assert (uu * 1 <= rW) by (apply Rmult_le_compat_l; lra).
  assert (1 * W <= rho * W) by (apply Rmult_le_compat_r; lra). assert (uu * W <= rW) by (apply Rmult_le_compat_l; lra). assert (0 < uu * W) by (apply Rmult_lt_0_compat; lra). repeat split; lra.
Qed.
Lemma ur_elbow m l : Rabs a3 <= 4 -> room L bdot z 2 m a3 -> 32548000000 * rW <= m ->
  g_subproblem3 A (l3 A P3) (l3 A P2) (l3 A H2) (l_norm A (l3 A (u_p23 A H0 H3 P0 P1 P4 P6 R06 pT x1 x24))) = Ok l ->
  exists t3 x3 : b64, In t3 l /\ g_normalize A b_rem z 2 t3 = Ok (Some x3) /\ bfin x3 /\ Rabs (bval x3) <= 16 /\ there L bdot z (32548000000 * rW) (bval x3) a3.
Proof.
  intros B3 RO ME E3. nn. pose proof uu_val' as UV. assert (UM : 0 < uu * M) by (apply Rmult_lt_0_compat; lra). assert (UMM : 0 < uu * (M * M)) by (rewrite <- Rmult_assoc; apply Rmult_lt_0_compat; lra).
  destruct rrW_le as (W0 & Wr & Wb & Wu & Ww & W0'). destruct rw_facts as (A1 & A2 & A3 & A4 & A5 & A6 & A7 & A8 & A9).
  set (c := c23 (bval x1) (bval x24)) in *. pose proof (ca_le (bval x1) (bval x24)) as CB. pose proof (ca_norm (bval x1) (bval x24)) as CN. fold c in CN.
  pose proof (p23_ok L bdot HD HL HT H0 H1 H3 P0 P1 P2 P3 P4 P6 R06 pT h0 h Q M S0 S1 S3 MQ F0 F1 F4 F6 FT RM SZ x1 x24 FX1 FX24) as VO. fold c in VO. set (v := u_p23 A H0 H3 P0 P1 P4 P6 R06 pT x1 x24) in *.
  assert (CB' : 1001 / 1000 * norm c <= M) by (rewrite <- CN; exact CB). pose proof (norm_nonneg c) as CNN.
  destruct (vc_stored L bdot M 5729 _ _ MP ltac:(lra) CB' VO) as (SV & _ & TV).
  destruct (tr_norm bdot 0 M _ _ HD ltac:(unfold cb; lra) (FactsUr64.RM' M RM 390 ltac:(lia)) TV) as ((FD & DE & _) & D0). change (l_norm A (l3 A v)) with (b_sqrt (bdot (l3 A v) (l3 A v))) in E3. set (d := b_sqrt (bdot (l3 A v) (l3 A v))) in *.
  assert (ND' : Rabs (norm (vval v) - norm c) <= 5729 * (uu * M)) by (eapply Rle_trans; [apply norm_dist_le|apply VO]).
  assert (DC : Rabs (bval d - norm c) <= 5745 * (uu * M)). { apply Rabs_le_inv in DE. apply Rabs_le_inv in ND'. apply Rabs_le. lra. }
  assert (UM1 : 5745 * (uu * M) <= 1 / 10000 * M) by (rewrite <- Rmult_assoc; apply Rmult_le_compat_r; [lra|rewrite UV; lra]).
  assert (DM : Rabs (bval d) <= M) by (apply Rabs_le_inv in DC; apply Rabs_le; lra).
  assert (MO : moderate M) by exact (FactsUr64.RM' M RM 380 ltac:(lia)).
  destruct (vc_stored L bdot M 0 P2 p2 MP ltac:(lra) ltac:(lra) ltac:(apply vc_exact; [assumption|lra])) as (_ & S2' & _). destruct (vc_stored L bdot M 0 P3 p3 MP ltac:(lra) ltac:(lra) ltac:(apply vc_exact; [assumption|lra])) as (_ & S3' & _).
  assert (SK : stored_axis (l3 A H2) h). { destruct S2 as (UU & G0 & G1 & G2 & G3). split; [exact UU|]. exists (w0 H2), (w1 H2), (w2 H2). tauto. }
  destruct ur_perps as [PB2 PB3].
  assert (Q2 : Rabs (bval d * bval d - norm c * norm c) <= 11490 * (uu * (M * M))).
  { replace (bval d * bval d - norm c * norm c) with ((bval d - norm c) * (bval d + norm c)) by ring. rewrite Rabs_mult. apply Rle_trans with (5745 * (uu * M) * (2 * M)); [|right; ring].
    apply Rmult_le_compat; try apply Rabs_pos; [exact DC|]. rewrite Rabs_right by lra. rewrite Rabs_right in DM by lra. lra. }
  pose proof ca_near as CM. pose proof (ca_le a1 s) as CB1. pose proof (norm_nonneg (ca a1 s)). pose proof (norm_nonneg (ca (bval x1) (bval x24))).
  pose proof (near_sq (ca (bval x1) (bval x24)) (ca a1 s) M (3799600000 * (uu * W) * M) ltac:(lra) ltac:(lra) CM) as Q1. rewrite <- !norm_sq, CN in Q1.
  assert (SQ : Rabs (reach_sq h p3 p2 a3 - norm (ca a1 s) * norm (ca a1 s)) <= 7980 * (uu * (M * M))).
  { rewrite norm_sq. pose proof (c2_le L bdot H2 P0 P1 P2 P3 P6 pT h M S2 RM ltac:(lra) a3) as CB3. pose proof (norm_nonneg (c2 a3)). replace (reach_sq h p3 p2 a3) with (dot (rotate h a2 (c2 a3)) (rotate h a2 (c2 a3))) by (rewrite <- !norm_sq, PropSub2.turn_norm by exact UH; rewrite norm_sq; reflexivity).
    replace (7980 * (uu * (M * M))) with (2 * M * (3990 * (uu * M))) by ring. apply near_sq; [rewrite PropSub2.turn_norm by exact UH; lra|lra|exact EX]. }
  assert (UMW : uu * (M * M) <= uu * W * (M * M)) by (apply Rmult_le_compat_r; [apply Rmult_le_pos; lra|rewrite <- (Rmult_1_r uu) at 1; apply Rmult_le_compat_l; lra]).
  assert (EE : Rabs (reach_sq h p3 p2 a3 - bval d * bval d) <= 7600000000 * (uu * W * (M * M))).
  { replace (2 * M * (3799600000 * (uu * W) * M)) with (7599200000 * (uu * W * (M * M))) in Q1 by ring. apply Rabs_le_inv in Q1, Q2, SQ. apply Rabs_le. lra. }
  set (kap := M * M / rho). assert (KE : kap * rho = M * M) by (unfold kap; field; lra). assert (MM0 : 0 < M * M) by (apply Rmult_lt_0_compat; lra).
  assert (K0 : 0 < kap) by (apply Rmult_lt_0_compat; [exact MM0|apply Rinv_0_lt_compat; lra]). assert (KM : M * M <= 32 * kap) by (assert (kap * rho <= kap * 32) by (apply Rmult_le_compat_l; lra); lra).
  assert (C1 : bpow radix2 (-17) * (M * M) <= kap) by (rewrite up17; lra). assert (C2 : kap <= Rabs (reach_rate h p3 p2 a3)) by (apply div_le; lra).
  assert (C3 : 64 * (7600000000 * (uu * W * (M * M))) * (M * M) <= kap * kap).
  { rewrite <- KE. replace (64 * (7600000000 * (uu * W * (kap * rho))) * (kap * rho)) with (486400000000 * rrW * (kap * kap)) by ring. rewrite <- (Rmult_1_l (kap * kap)) at 2. apply Rmult_le_compat_r; [apply Rmult_le_pos; lra|rewrite UV in *; lra]. }
  assert (HA' : libm_arc_ok L (bpow radix2 (-50))) by (rewrite b50; exact HA).
  destruct (PropReach2.C110_complete L bdot (l3 A P3) (l3 A P2) (l3 A H2) d p3 p2 h M a3 (7600000000 * (uu * W * (M * M))) kap l HD HA' MO S3' S2' SK FD DM) as (t3 & I3 & F3' & SM); try assumption.
  destruct (PropReach.residual L bdot HD HA (l3 A P3) (l3 A P2) (l3 A H2) d p3 p2 h M MO S3' S2' SK FD DM PB3 PB2 l t3 E3 I3) as (_ & BT3 & _).
  assert (SM2 : same_angle (32547500000 * rW) (bval t3) a3).
  { eapply same_weak; [|exact SM]. apply div_le; [exact K0|]. rewrite up24. replace (32547500000 * rW * kap) with (32547500000 * (uu * W * (kap * rho))) by ring. rewrite KE. lra. }
  destruct (norm_found L bdot z 2 t3 a3 (32547500000 * rW) m F3') as (x3 & EN & FX3 & BX & SX3); [lra|exact SM2|exact B3|rewrite UV in *; lra|lra|exact RO|].
  exists t3, x3. split; [exact I3|]. split; [exact EN|]. split; [exact FX3|]. split; [exact BX|]. apply (there_weak L bdot z (32547500000 * rW + 200 * uu)); [lra|exact SX3].
Qed.
Lemma c2_near x3 e : same_angle e x3 a3 -> norm (vsub (c2 x3) (c2 a3)) <= e * M.
Proof.
  intros SA. unfold FactsArm64.c2. nn. rewrite add_cancel.
  assert (E0 : 0 <= e). { destruct SA as (n & SA). pose proof (Rabs_pos (x3 - a3 - 2 * PI * IZR n)). lra. }
  eapply Rle_trans; [apply same_moves; [exact UH|exact SA]|]. apply Rmult_le_compat_l; lra.
Qed.
Lemma ur_shoulder m (t1 t3 x3 t2 : b64) l : Rabs a2 <= 4 -> room L bdot z 1 m a2 -> 74181000000 * rrW <= m -> Rabs (bval x1) <= 16 -> bfin x3 -> Rabs (bval x3) <= 16 -> same_angle (32548000000 * rW) (bval x3) a3 ->
  In t1 (g_subproblem4 A f (g_ey A) (w_v A P6 R06 pT) (g_vneg A H0) (w_d1 A (g_vadd A P1 P2) P3 P4)) -> g_normalize A b_rem z 0 t1 = Ok (Some x1) ->
  g_subproblem3 A (l3 A P3) (l3 A P2) (l3 A H2) (l_norm A (l3 A (u_p23 A H0 H3 P0 P1 P4 P6 R06 pT x1 x24))) = Ok l -> In t3 l -> g_normalize A b_rem z 2 t3 = Ok (Some x3) ->
  g_subproblem1 A (l3 A (w_p2 A H2 P2 P3 x3)) (l3 A (u_v2 A H0 H3 P0 P1 P4 P6 R06 pT x1 x24)) (l3 A H1) = Ok t2 ->
  exists x2 : b64, g_normalize A b_rem z 1 t2 = Ok (Some x2) /\ bfin x2 /\ Rabs (bval x2) <= 16 /\ there L bdot z (74181000000 * rrW) (bval x2) a2.
Proof.
  intros B2 RO ME BX1 FX3 BX3 SX3 I1 N1 E3 I3 N3 E2. nn. pose proof uu_val' as UV. assert (UM : 0 < uu * M) by (apply Rmult_lt_0_compat; lra).
  assert (UM' : uu * M <= 12 / 100000000000000000 * M) by (apply Rmult_le_compat_r; [lra|rewrite UV; lra]).
  destruct ur_perps as [PB2 PB3]. destruct rrW_le as (W0 & Wr & Wb & Wu & Ww & W0'). destruct rw_facts as (A1 & A2 & A3 & A4 & A5 & A6 & A7 & A8 & A9).
  destruct v12_ok as (F12 & E12 & N12 & SZ12).
  pose proof (base_height L bdot f HD HL HG HF H0 P0 (g_vadd A P1 P2) P3 P4 P6 R06 pT h0 Q M S0 MQ F12 F3 F4 F6 FT RM SZ12 Y0 z t1 x1 I1 N1 FX1 ltac:(lra)) as BH. unfold c26 in BH. set (v12 := vval (g_vadd A P1 P2)) in *.
  set (c := ca (bval x1) (bval x24)).
  assert (HC : Rabs (dot ey c - dot ey (vadd p2 p3)) <= 8610 * (uu * M)).
  { pose proof (near_dot ey v12 (vadd p1 p2)) as D. rewrite (norm_unit _ ey_unit), Rmult_1_l in D.
    assert (Z0 : dot ey p0 = 0) by (unfold dot, ey; cbn [vx vy vz]; rewrite Y0; ring).
    unfold c, ca. rewrite !dot_vsub_r, (flat h), Z0 by exact EH. rewrite dot_vsub_r, !dot_vadd_r, Z0 in BH. rewrite !dot_vadd_r in *. apply Rabs_le_inv in BH. apply Rabs_le_inv in D. apply Rabs_le. lra. }
  pose proof (ca_le (bval x1) (bval x24)) as CC. fold c in CC. pose proof (ca_norm (bval x1) (bval x24)) as CN. fold c in CN.
  assert (SZ3 : 1001 / 1000 * (norm p0 + norm p1 + norm p2 + norm p3 + norm p6 + norm T) <= M) by lra.
  assert (CC' : 1001 / 1000 * norm (c23 (bval x1) (bval x24)) <= M) by (rewrite <- CN; exact CC).
  assert (SQ : Rabs (dot (c2 (bval x3)) (c2 (bval x3)) - dot c c) <= 536896000 * uu * (M * M)).
  { rewrite <- (norm_sq c), CN, norm_sq. apply (elbow_at L bdot HD HA H2 P0 P1 P2 P3 P6 pT h h M S2 F2 F3 RM SZ3 EH EH z (u_p23 A H0 H3 P0 P1 P4 P6 R06 pT x1 x24) _ t3 x3 l); try assumption; [|lra].
    eapply vc_weak; [lra| |exact (p23_ok L bdot HD HL HT H0 H1 H3 P0 P1 P2 P3 P4 P6 R06 pT h0 h Q M S0 S1 S3 MQ F0 F1 F4 F6 FT RM SZ x1 x24 FX1 FX24)]. lra. }
  pose proof ca_near as CM1. fold c in CM1. pose proof (c2_near (bval x3) _ SX3) as CM3.
  set (mr := M / rho). assert (MRE : mr * rho = M) by (unfold mr; field; lra). assert (MR0 : 0 < mr) by (apply Rmult_lt_0_compat; [exact MP|apply Rinv_0_lt_compat; lra]). assert (MK : mr <= norm (perp ey (c2 a3))) by (apply div_le; lra). clearbody mr.
  assert (RM2 : rW * M = rrW * mr) by (rewrite <- MRE; ring).
  assert (PE : 9 / 10 * mr <= norm (perp ey (c2 (bval x3)))).
  { pose proof (perp_near ey (c2 (bval x3)) (c2 a3) ey_unit) as X. apply Rabs_le_inv in X. assert (32548000000 * rW * M <= 1 / 10 * mr).
    { replace (32548000000 * rW * M) with (32548000000 * (rW * M)) by ring. rewrite RM2, <- Rmult_assoc. apply Rmult_le_compat_r; [lra|]. rewrite UV in *. lra. } lra. }
  assert (OFF : M <= 112 / 100 * rho * norm (perp ey (c2 (bval x3)))).
  { apply Rle_trans with (112 / 100 * rho * (9 / 10 * mr)); [|apply Rmult_le_compat_l; lra]. replace (112 / 100 * rho * (9 / 10 * mr)) with (1008 / 1000 * (mr * rho)) by field. rewrite MRE. lra. }
  assert (VO : vc M 8000 (u_v2 A H0 H3 P0 P1 P4 P6 R06 pT x1 x24) c).
  { eapply vc_weak; [lra| |]; [|unfold c; rewrite <- ca_turn; exact (v2_ok L bdot HD HL HT H0 H1 H3 P0 P1 P2 P3 P4 P6 R06 pT h0 h Q M S0 S1 S3 MQ F0 F1 F4 F6 FT RM SZ x1 x24 FX1 FX24)]. lra. }
  destruct (shoulder_raw L bdot HD HL HT HA H1 H2 P0 P1 P2 P3 P6 pT h h M S1 S2 F2 F3 RM SZ3 EH EH (u_v2 A H0 H3 P0 P1 P4 P6 R06 pT x1 x24) c t2 x3 (112 / 100 * rho) VO CC FX3 E2 ltac:(lra) OFF HC SQ) as (FT2 & BT2 & RS).
  rewrite seps_uu in RS. set (y := c2 (bval x3)) in *.
  assert (MV : norm (vsub (rotate h (bval t2) y) (rotate h a2 y)) <= 37090000000 * (rW * M)).
  { assert (X3 : norm (vsub (rotate h a2 (c2 a3)) (rotate h a2 y)) <= 32548000000 * rW * M) by (rewrite PropMove.rotate_sub by exact UH; rewrite norm_vsub_sym; exact CM3).
    rewrite (chain3 _ c (ca a1 s)). eapply Rle_trans; [apply norm_triangle|]. eapply Rle_trans; [apply Rplus_le_compat_l; apply norm_triangle|].
    assert (X4 : norm (vsub (ca a1 s) (rotate h a2 y)) <= 3990 * (uu * M) + 32548000000 * rW * M) by (rewrite (chain2 _ (rotate h a2 (c2 a3))); eapply Rle_trans; [apply norm_triangle|]; rewrite (norm_vsub_sym (ca a1 s)); lra).
    assert (Y1 : uu * M <= rW * M) by (apply Rmult_le_compat_r; lra). assert (Y2 : uu * W * M <= rW * M) by (apply Rmult_le_compat_r; lra). assert (Y3 : uu * 1 <= uu * M) by (apply Rmult_le_compat_l; lra).
    assert (Y4 : uu * M * rho <= rW * M). { replace (rW * M) with (uu * M * (rho * W)) by ring. apply Rmult_le_compat_l; [lra|]. assert (rho * 1 <= rho * W) by (apply Rmult_le_compat_l; lra). lra. }
    lra. }
  assert (BP : 9 / 10 * mr <= norm (perp h y)) by (rewrite (same_perp h ey y EH); exact PE).
  assert (SM : same_angle (18 / 10 * (37090000000 * (rW * M) / (9 / 10 * mr))) (bval t2) a2).
  { apply (moves_same h (bval t2) a2 _ (9 / 10 * mr) y UH ltac:(lra) BP MV). rewrite RM2. replace (10 * (37090000000 * (rrW * mr))) with (370900000000 * rrW * mr) by ring. apply Rmult_le_compat_r; [lra|]. rewrite UV in *. lra. }
  assert (SM2 : same_angle (74180000000 * rrW) (bval t2) a2).
  { eapply same_weak; [|exact SM]. rewrite RM2. replace (37090000000 * (rrW * mr) / (9 / 10 * mr)) with (370900000000 / 9 * rrW) by (field; lra). lra. }
  destruct (norm_found L bdot z 1 t2 a2 (74180000000 * rrW) m FT2) as (x2 & EN & FX2 & BX & SX2); [lra|exact SM2|exact B2|rewrite UV in *; lra|lra|exact RO|].
  exists x2. split; [exact EN|]. split; [exact FX2|]. split; [exact BX|]. apply (there_weak L bdot z (74180000000 * rrW + 200 * uu)); [lra|exact SX2].
Qed.
Lemma ur_fourth m (x2 x3 : b64) a4 : s = a2 + a3 + a4 -> bfin x2 -> bfin x3 -> Rabs (bval x2) <= 16 -> Rabs (bval x3) <= 16 -> Rabs (bval x24) <= 16 / 5 -> same_angle (74181000000 * rrW) (bval x2) a2 -> same_angle (32548000000 * rW) (bval x3) a3 ->
  Rabs a4 <= 4 -> room L bdot z 3 m a4 -> 110529000000 * rrW <= m -> (gnlimits z <> None -> Rabs (bval x2) <= PI /\ Rabs (bval x3) <= PI /\ Rabs a4 <= 14 / 5) ->
  exists x4 : b64, g_normalize A b_rem z 3 (nsub A (nsub A x24 x2) x3) = Ok (Some x4) /\ there L bdot z (110529000000 * rrW) (bval x4) a4.
Proof.
  intros ES FX2 FX3 B2 B3 B24 SX2 SX3 BA4 RO ME CL. destruct rrW_le as (W0 & Wr & Wb & Wu & Ww & W0'). pose proof uu_val' as UV. cbn [nsub b64_arith].
  destruct (sub_near x24 x2 20 FX24 FX2 ltac:(lra)) as [FA EA]. { apply Rabs_le_inv in B24, B2. apply Rabs_le. lra. } set (u := b_sub x24 x2) in *.
  destruct (sub_near u x3 37 FA FX3 ltac:(lra)) as [FB EB]. { apply Rabs_le_inv in B24, B2, B3, EA. apply Rabs_le. rewrite UV in *. lra. } set (t := b_sub u x3) in *.
  assert (ET : Rabs (bval t - (bval x24 - bval x2 - bval x3)) <= 60 * uu) by (apply Rabs_le_inv in EA, EB; apply Rabs_le; lra).
  assert (SM : same_angle (110528000000 * rrW) (bval t) a4).
  { pose proof (same_err _ _ _ _ _ ET (same_add _ _ _ _ _ _ (same_add _ _ _ _ _ _ SX24 SX2) SX3)) as X. replace (s - a2 - a3) with a4 in X by (rewrite ES; ring). eapply same_weak; [|exact X]. lra. }
  destruct (norm_far L bdot z 3 t a4 (110528000000 * rrW) m FB) as (x4 & EN & SX); [|exact SM|exact BA4|rewrite UV in *; lra|lra|exact RO| |].
  - apply Rabs_le_inv in B24, B2, B3, ET. apply Rabs_le. rewrite UV in *. lra.
  - intros NL. destruct (CL NL) as (C2 & C3 & C4). pose proof pi_lo as PL. assert (Rabs (bval t) <= 16 / 5 + 2 * PI + 60 * uu) by (apply Rabs_le_inv in B24, C2, C3, ET; apply Rabs_le; lra). rewrite UV in *. lra.
  - exists x4. split; [exact EN|]. eapply there_weak; [|exact SX]. lra.
Qed.
End Elbow.

(** the joints together: whatever follows the search as the program does finds the solution *)
Lemma ur_core_find m a4 (sols : list (list b64)) : s = a2 + a3 + a4 -> Forall (fun a => Rabs a <= 4) [a1; a2; a3; a4; a6] -> 110529000000 * (uu * (rho * rho * W)) <= m ->
  room L bdot z 0 m a1 -> room L bdot z 1 m a2 -> room L bdot z 2 m a3 -> room L bdot z 3 m a4 -> room L bdot z 5 m a6 ->
  (gnlimits z <> None -> Rabs a4 <= 14 / 5 /\ forall t x : b64, g_normalize A b_rem z 1 t = Ok (Some x) \/ g_normalize A b_rem z 2 t = Ok (Some x) -> Rabs (bval x) <= PI) ->
  (forall t1 q1 : b64, close_by A z 0 q1 -> In t1 (g_subproblem4 A f (g_ey A) (w_v A P6 R06 pT) (g_vneg A H0) (w_d1 A (g_vadd A P1 P2) P3 P4)) -> g_normalize A b_rem z 0 t1 = Ok (Some q1) ->
   exists Q45, g_subproblem2 A (l3 A H5) (l3 A (u_v4 A H0 H5 R06 q1)) (l3 A H3) (l3 A H4) = Ok Q45 /\
   forall q24 q5 : b64, In (q24, q5) Q45 ->
   exists Q3, g_subproblem3 A (l3 A P3) (l3 A P2) (l3 A H2) (l_norm A (l3 A (u_p23 A H0 H3 P0 P1 P4 P6 R06 pT q1 q24))) = Ok Q3 /\
   forall t3 q3 : b64, In t3 Q3 -> g_normalize A b_rem z 2 t3 = Ok (Some q3) -> close_by A z 2 q3 ->
   exists t2 : b64, g_subproblem1 A (l3 A (w_p2 A H2 P2 P3 q3)) (l3 A (u_v2 A H0 H3 P0 P1 P4 P6 R06 pT q1 q24)) (l3 A H1) = Ok t2 /\
   forall q2 : b64, g_normalize A b_rem z 1 t2 = Ok (Some q2) -> forall q4 : b64, g_normalize A b_rem z 3 (nsub A (nsub A q24 q2) q3) = Ok (Some q4) ->
   exists t6 : b64, g_subproblem1 A (l3 A H4) (l3 A (u_v6 A H0 H3 H4 R06 q1 q24 q5)) (l3 A H5) = Ok t6 /\
   forall q6 : b64, g_normalize A b_rem z 5 t6 = Ok (Some q6) -> In [q1; q2; q3; q4; q5; q6] sols) ->
  exists x1 x2 x3 x4 x5 x6 : b64, In [x1; x2; x3; x4; x5; x6] sols /\ there L bdot z (32700 * uu * rho) (bval x1) a1 /\ there L bdot z (74181000000 * (uu * (rho * rho * W))) (bval x2) a2 /\ there L bdot z (32548000000 * (uu * (rho * W))) (bval x3) a3 /\
    there L bdot z (110529000000 * (uu * (rho * rho * W))) (bval x4) a4 /\ same_angle (1519400000 * (uu * (w * w))) (bval x5) a5 /\ there L bdot z (13506000000 * (uu * W)) (bval x6) a6.
Proof.
  intros ES BA ME RO0 RO1 RO2 RO3 RO5 CL SEARCH. assert (B : forall a, In a [a1; a2; a3; a4; a6] -> Rabs a <= 4) by (apply Forall_forall; exact BA).
  destruct rrW_le as (W0 & Wr & Wb & Wu & Ww & W0'). destruct rw_facts as (A1 & A2 & A3 & A4 & A5 & A6 & A7 & A8 & A9).
  assert (UR : uu * rho <= uu * (rho * W)) by (apply Rmult_le_compat_l; [lra|]; rewrite <- (Rmult_1_r rho) at 1; apply Rmult_le_compat_l; lra).
  destruct (ur_base m) as (t1 & x1 & I1 & N1 & FX1 & BX1 & TX1); [apply B; cbn; tauto|exact RO0|lra|].
  pose proof (proj1 TX1) as SX1. pose proof uu_val' as UV.
  destruct (SEARCH t1 x1) as (Q45 & E45 & G45); [apply (near_of L bdot z 0 m a1 (32700 * uu * rho) x1 RO0); [apply B; cbn; tauto|exact FX1|exact TX1|assert (uu * rho <= uu * 32) by (apply Rmult_le_compat_l; lra); rewrite UV in *; lra]|exact I1|exact N1|]. clear SEARCH.
  destruct (uw_facts x1 SX1) as (U1 & U2 & U3 & U4' & D0 & E0 & EW1 & EW2 & EW & _).
  destruct (ur_pair x1 FX1 SX1 Q45 E45) as (x24 & x5 & I45 & FX24 & FX5 & B24 & SX5 & SX24 & D45).
  assert (SX24' : same_angle (3798500000 * (uu * W)) (bval x24) s) by (eapply same_weak; [|exact SX24]; lra).
  destruct (G45 x24 x5 I45) as (Q3 & E3 & G3). clear G45.
  destruct (ur_elbow x1 x24 FX1 FX24 SX1 SX24' m Q3) as (t3 & x3 & I3 & N3 & FX3 & BX3 & TX3); [apply B; cbn; tauto|exact RO2|lra|exact E3|].
  pose proof (proj1 TX3) as SX3. destruct (G3 t3 x3 I3 N3) as (t2 & E2 & G2); [apply (near_of L bdot z 2 m a3 (32548000000 * (uu * (rho * W))) x3 RO2); [apply B; cbn; tauto|exact FX3|exact TX3|rewrite UV in *; lra]|]. clear G3.
  destruct (ur_shoulder x1 x24 FX1 FX24 SX1 SX24' m t1 t3 x3 t2 Q3) as (x2 & N2 & FX2 & BX2 & TX2); try assumption; [apply B; cbn; tauto|lra|].
  pose proof (proj1 TX2) as SX2. destruct (ur_fourth x1 x24 FX24 SX1 SX24' m x2 x3 a4) as (x4 & N4 & TX4); try assumption; [apply B; cbn; tauto| |].
  { intros NL. destruct (CL NL) as [C4 C]. split; [apply (C t2); left; exact N2|]. split; [apply (C t3); right; exact N3|exact C4]. }
  destruct (G2 x2 N2 x4 N4) as (t6 & E6 & G6).
  destruct (ur_last x1 FX1 SX1 m x24 x5 t6) as (x6 & N6 & TX6); try assumption; [apply B; cbn; tauto|lra|].
  assert (0 <= uu * (w * w)) by (apply Rmult_le_pos; [lra|apply Rmult_le_pos; lra]). exists x1, x2, x3, x4, x5, x6. split; [exact (G6 x6 N6)|]. split; [exact TX1|]. split; [exact TX2|]. split; [exact TX3|]. split; [exact TX4|]. split; [eapply same_weak; [|exact SX5]; lra|eapply there_weak; [|exact TX6]; lra].
Qed.
End Core.
