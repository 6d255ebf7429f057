(** The angles of the subproblems and the joints after normalize_joints, in binary64. *)
From Coq Require Import Reals ZArith List Bool Lra Lia Psatz.
From Flocq Require Import Core.Core IEEE754.BinarySingleNaN.
From Verif Require Import LinAlg RealAux Py FactsReal FactsLinAlg ModelRot SpecRot FactsRot FactsNorm SpecSub FactsSub ModelFloat ModelFloat2 ModelFloat3 ModelFloat9 ModelFloat11 SpecRound FactsB64 FactsExact FactsTrack SpecArc SpecSub4 SpecRpy FactsAngle PropPi.
From Verif Require FactsSub2 PropSub4 PropAngle PropNorm PropMove PropReach.
Import ListNotations.
Open Scope R_scope.

(** the second angle moves the vector as the first does, up to whole turns and the rounding of normalize *)
Lemma rotate_turns k t n v : rotate k (t + 2 * PI * IZR n) v = rotate k t v.
Proof. destruct (FactsRpy.turns (t + 2 * PI * IZR n) n) as [S C]. replace (t + 2 * PI * IZR n - 2 * PI * IZR n) with t in S, C by ring. unfold rotate. rewrite S, C. reflexivity. Qed.
Lemma joint_turn L dot (z : gnormalizer (b64_arith L dot)) j (t x : b64) h : unit3 h ->
  g_normalize (b64_arith L dot) b_rem z j t = Ok (Some x) -> bfin x -> Rabs (bval x) <= 1024 -> Rabs (bval t) <= 16 ->
  forall v, norm (vsub (rotate h (bval x) v) (rotate h (bval t) v)) <= 4200 * uu * norm v.
Proof.
  intros U E F BX BT v. destruct (PropNorm.C87_whole_turns L dot z j t x E F) as (n & B). pose proof uu_pos as UP. pose proof uu_small as US. pose proof pi_lo as PL.
  set (X := bval x) in *. set (T := bval t) in *. set (m := IZR n) in *.
  assert (N : Rabs m <= 167).
  { assert (B1 : Rabs (2 * PI * m) <= 1040 + uu * (3 * 16 + 24 * Rabs m + 60)).
    { replace (2 * PI * m) with (X - T + - (X - (T + 2 * PI * m))) by ring. eapply Rle_trans; [apply Rabs_triang|]. rewrite Rabs_Ropp. assert (Rabs (X - T) <= 1040) by (apply Rabs_le_inv in BX; apply Rabs_le_inv in BT; apply Rabs_le; lra).
      assert (uu * (3 * Rabs T + 24 * Rabs m + 60) <= uu * (3 * 16 + 24 * Rabs m + 60)) by (apply Rmult_le_compat_l; lra). lra. }
    rewrite Rabs_mult, (Rabs_right (2 * PI)) in B1 by lra. pose proof (Rabs_pos m) as MP.
    assert (uu * Rabs m <= 1 / 1000000 * Rabs m) by (apply Rmult_le_compat_r; lra). assert (314 / 50 * Rabs m <= 2 * PI * Rabs m) by (apply Rmult_le_compat_r; lra). lra. }
  rewrite <- (rotate_turns h T n v). fold m. eapply Rle_trans; [apply PropMove.rotate_moves; exact U|]. apply Rmult_le_compat_r; [apply norm_nonneg|]. eapply Rle_trans; [exact B|].
  rewrite (Rmult_comm 4200). apply Rmult_le_compat_l; lra.
Qed.

(** subproblem 1 turns v to c, if their parts along the axis and across agree *)
Lemma sub1_turn L bdot m r lv lc k v c h t : In bdot b_dots -> libm_arc_ok L (8 * uu) -> rg 380 m -> unit3 h -> vtr 8 1 k h -> vtr 0 m lv v -> vtr 0 m lc c -> 1 <= r <= 10000000 ->
  m <= r * norm (perp h v) -> m <= r * norm (perp h c) -> g_subproblem1 (b64_arith L bdot) lv lc k = Ok t ->
  bfin t /\ Rabs (bval t) <= 16 / 5 /\
  norm (vsub (rotate h (bval t) v) c) <= sqrt_eps + 4800000 * r * (uu * m) + Rabs (norm (perp h v) - norm (perp h c)) + Rabs (LinAlg.dot v h - LinAlg.dot c h).
Proof.
  intros HD HL RM UH VK VV VC R1 PV PC E. pose proof uu_pos as U. pose proof (rg_pos _ _ RM) as MP. set (n := norm (perp h v)) in *. set (n' := norm (perp h c)) in *.
  assert (N0 : 0 < n) by (apply Rnot_le_lt; intros C; assert (r * n <= 0) by nra; lra). assert (N0' : 0 < n') by (apply Rnot_le_lt; intros C; assert (r * n' <= 0) by nra; lra).
  assert (HZ : h <> vzero) by (intros ->; unfold unit3, LinAlg.dot in UH; cbn in UH; lra).
  assert (VV8 : vtr 8 m lv v) by (apply (vtr_weak 0); [lra|lra|exact VV]). assert (VC8 : vtr 8 m lc c) by (apply (vtr_weak 0); [lra|lra|exact VC]).
  assert (NM : n <= m). { assert (NV : norm v <= m) by (destruct VV as (_ & _ & _ & _ & _ & _ & _ & N); exact N). eapply Rle_trans; [|exact NV]. apply FactsTrack.perp_le. exact UH. }
  destruct (sub1_acc L bdot HD HL 8 r m 1 lv lc k v c h t) as (FT & BT & ALT); try assumption; try lra.
  { apply rg_1. lia. }
  { rewrite (norm_unit _ UH). lra. }
  { rewrite (FactsSub.dir_of_unit _ UH). fold n. lra. }
  { rewrite (FactsSub.dir_of_unit _ UH). fold n'. lra. }
  split; [exact FT|]. split; [exact BT|]. rewrite (FactsSub.dir_of_unit _ UH) in ALT. pose proof (Rabs_pos (n - n')) as A1. pose proof (Rabs_pos (LinAlg.dot v h - LinAlg.dot c h)) as A2.
  assert (UM : 0 < uu * m) by (apply Rmult_lt_0_compat; lra). assert (UR : uu * m <= r * (uu * m)) by (rewrite <- (Rmult_1_l (uu * m)) at 1; apply Rmult_le_compat_r; lra).
  destruct ALT as [[T0 B]|B].
  - rewrite T0, FactsSub2.rot_0. lra.
  - unfold dir in B. fold n n' in B. rewrite (FactsSub2.rot_split h (bval t) v c n n' UH) by lra.
    eapply Rle_trans; [apply norm_triangle|]. eapply Rle_trans; [apply Rplus_le_compat_r, norm_triangle|]. rewrite !norm_vscale. rewrite (norm_unit _ UH), (Rabs_right n) by lra. fold n'.
    assert (Rabs (/ n') * n' = 1) as -> by (rewrite Rabs_inv, (Rabs_right n') by lra; field; lra).
    assert (n * norm (vsub (rotate h (bval t) (vscale (/ n) (perp h v))) (vscale (/ n') (perp h c))) <= m * (300000 * (r * (8 + 8)) * uu)) by (apply Rmult_le_compat; auto using norm_nonneg; lra).
    pose proof sqrt_eps_pos. lra.
Qed.

(** the size of the angles of subproblem 4 *)
Lemma zero_form (x : b64) : bfin x -> bval x = 0 -> exists s, x = B754_zero s.
Proof. intros F Z. destruct x as [s|s| |s m e Hb]; try discriminate F; [exists s; reflexivity|]. unfold bval, B2R in Z. apply eq_0_F2R in Z. cbn in Z. destruct s; discriminate Z. Qed.
Lemma sub4_small L f bdot (p q k : v3 b64) (d : b64) p0 q0 k0 M N t : In bdot b_dots -> libm_angle_ok L (bpow radix2 (-50)) -> libm_asin_ok f (bpow radix2 (-50)) ->
  rg 190 M -> rg 190 N -> unit3 k0 -> vtr 0 M (PropSub4.v3l p) p0 -> vtr 0 N (PropSub4.v3l q) q0 -> vtr 8 1 (PropSub4.v3l k) k0 -> bfin d ->
  In t (g_subproblem4 (b64_arith L bdot) f p q k d) -> bfin t -> Rabs (bval t) <= 8.
Proof.
  intros HD HL HF HM HN U Tp Tq Tk Fd I F. rewrite PropSub4.sub4_list in I. destruct (b_lt _ _); [destruct I|].
  pose proof (PropSub4.a_ok L bdot HD p q k p0 q0 k0 M N HM HN U Tp Tq Tk) as (FA & _). pose proof (PropSub4.b_ok L bdot HD p q k p0 q0 k0 M N HM HN U Tp Tq Tk) as (FB & _).
  set (a := PropSub4.s_a L bdot p q k) in *. set (b := PropSub4.s_b L bdot p q k) in *.
  assert (NZ : bfin (PropSub4.s_d L bdot p q k d) -> 0 < bval a * bval a + bval b * bval b).
  { intros FD. apply Rnot_le_lt. intros C. pose proof (Rle_0_sqr (bval a)) as A0. pose proof (Rle_0_sqr (bval b)) as B0. unfold Rsqr in *.
    assert (ZA : bval a = 0) by (apply Rsqr_0_uniq; unfold Rsqr; lra). assert (ZB : bval b = 0) by (apply Rsqr_0_uniq; unfold Rsqr; lra).
    destruct (zero_form a FA ZA) as (sa & EA). destruct (zero_form b FB ZB) as (sb & EB). unfold PropSub4.s_d, PropSub4.s_n in FD. fold a b in FD. rewrite EA, EB in FD.
    assert (EN : exists s, b_sqrt (bdot [B754_zero sa; B754_zero sb] [B754_zero sa; B754_zero sb]) = B754_zero s).
    { cbn [In b_dots] in HD. repeat (destruct HD as [<- | HD]; [destruct sa, sb; vm_compute; eexists; reflexivity|]). contradiction. }
    destruct EN as (s & EN). assert (FD' : bfin (b_div (PropSub4.s_c L bdot p q k d) (b_sqrt (bdot [B754_zero sa; B754_zero sb] [B754_zero sa; B754_zero sb])))) by exact FD. rewrite EN in FD'. destruct (PropSub4.div_fin' _ _ FD' eq_refl) as (_ & N0 & _). apply N0. reflexivity. }
  assert (G : bfin (PropSub4.s_psi L f bdot p q k d) -> exists tau, - PI <= tau <= PI /\ Rabs (bval (PropSub4.s_phi L bdot p q k) - tau) <= 8 * uu /\ - (PI / 2) <= asin (bval (PropSub4.s_d L bdot p q k d)) <= PI / 2).
  { intros FP. destruct (PropSub4.psi_ok L f bdot p q k d HF FP) as (FD & _). pose proof (NZ FD) as P2.
    destruct (HL b a FB FA P2) as (_ & tau & T1 & T2 & _). rewrite PropAngle.eight in T2. exists tau. split; [exact T1|]. split; [exact T2|]. apply asin_bound. }
  pose proof pi_hi as PH. pose proof uu_small as US. pose proof uu_pos as UP. destruct I as [<- | [<- | []]].
  - destruct (add_fin _ _ F) as [_ F2]. destruct (G F2) as (tau & T1 & T2 & T3). pose proof (PropSub4.t1_near L f bdot p q k d HF tau F T1 T2) as E. apply Rabs_le_inv in E. apply Rabs_le. lra.
  - destruct (add_fin _ _ F) as [F0 _]. destruct (sub_fin _ _ F0) as [_ F2]. destruct (G F2) as (tau & T1 & T2 & T3). pose proof (PropSub4.t2_near L f bdot p q k d HF tau F T1 T2) as E. apply Rabs_le_inv in E. apply Rabs_le. lra.
Qed.
