(** Property C109: over the reals the program of ModelFloat12 is the model of C42-C43 and C64. *)
From Coq Require Import Reals ZArith List Bool Lra Lia.
From Verif Require Import LinAlg RealAux Py FactsReal FactsLinAlg ModelRot SpecRot FactsRot SpecSub FactsSub ModelTransform ModelRobot ModelKin SpecKin ModelSub ModelInvkin SpecInvkin ModelFloat ModelFloat2 ModelFloat3 ModelFloat6 ModelFloat9 ModelFloat10 ModelFloat11 ModelFloat12 FactsFloat FactsIk64 PropRobotR.
From Verif Require FactsInvkin FactsUr PropUr FactsRobot6 FactsIkGeo PropReal PropNorm PropSub2 PropSub4.
Import ListNotations.
Open Scope R_scope.

(* ---- np.allclose ---- *)
Lemma real_zero x : g_zero RA x = Reqb x 0.
Proof. unfold g_zero. rewrite real_lit0. cbn [nle real_arith]. unfold Rleb, Reqb. destruct (Rle_dec x 0), (Rle_dec 0 x), (Req_EM_T x 0); cbn; try reflexivity; exfalso; lra. Qed.
Lemma real_isclose a b : g_isclose RA a b = isclose (1/100000) (1/100000000) a b.
Proof.
  unfold g_isclose. rewrite real_zero. cbn [nsub real_arith]. replace (Reqb (b - b) 0) with true by (unfold Reqb; destruct (Req_EM_T (b - b) 0); [reflexivity|exfalso; lra]).
  rewrite andb_true_r. unfold isclose. reflexivity.
Qed.
Lemma real_col a h : g_col_close RA (emb_v a) (emb_v h) = col_close a h.
Proof. unfold g_col_close, col_close, emb_v. cbn [w0 w1 w2]. rewrite !real_isclose. reflexivity. Qed.
Lemma real_cols E H : g_cols_close RA (map emb_v E) (map emb_v H) = cols_close E H.
Proof.
  unfold g_cols_close, cols_close. rewrite !map_length. destruct (Nat.eqb (length E) (length H)).
  - f_equal. revert H. induction E as [|e E IH]; intros [|h H]; try reflexivity. cbn [map combine forallb fst snd]. rewrite real_col. f_equal. apply IH.
  - destruct H as [|h [|h' H]]; try reflexivity. cbn [map]. f_equal. induction E as [|e E IH]; [reflexivity|]. cbn [map forallb]. rewrite real_col, IH. reflexivity.
Qed.
Lemma real_ey : g_ey RA = emb_v ey. Proof. unfold g_ey. rewrite real_lit0, real_lit1. reflexivity. Qed.
Lemma real_ez : g_ez RA = emb_v ez. Proof. unfold g_ez. rewrite real_lit0, real_lit1. reflexivity. Qed.
Lemma real_minus : g_ur_minus RA = map emb_v ur_minus.
Proof. unfold g_ur_minus. rewrite real_ey, real_ez. reflexivity. Qed.
Lemma real_plus : g_ur_plus RA = map emb_v ur_plus.
Proof. unfold g_ur_plus. rewrite real_ey, real_ez. reflexivity. Qed.

Section Real.
Context (argsort : list (flt R) -> list nat).
Notation gsort := (fun l : list R => argsort (map Fin l)).
Notation gn := PropNorm.emb_norm.
Lemma real_inner z h0 h1 h2 h3 h4 h5 p0 p1 p2 p3 p4 p5 p6 R06 p04 R01 q1 q245 s : perp h2 p2 <> vzero -> perp h2 p3 <> vzero ->
  ur_inner argsort z [h0; h1; h2; h3; h4; h5] [p0; p1; p2; p3; p4; p5; p6] R06 p04 R01 q1 q245 = Ok s ->
  g_ur_inner RA remainder gsort (gn z) (map emb_v [h0; h1; h2; h3; h4; h5]) (map emb_v [p0; p1; p2; p3; p4; p5; p6]) (emb_m R06) (emb_v p04) (emb_m R01) q1 q245 = Ok s.
Proof.
  intros NP2 NP3. destruct q245 as [q24 q5]. unfold ur_inner, g_ur_inner. cbn [map index nth_error bind]. cbv zeta.
  rewrite !real_rot, !real_mm, !real_mv, !real_vsub', !l3_lst, PropReal.real_norm. intros E.
  apply bind_inv in E. destruct E as (Q3 & E3 & E).
  rewrite (PropReal.C82_reals _ _ _ _ _ NP3 NP2 E3). cbn [bind].
  apply bind_inv in E. destruct E as (N & EN & E). rewrite (real_call1 _ _ _ _ _ EN). cbn [bind]. revert E. apply flat_ok. intros q3 t E.
  rewrite real_rot, emb_cols, !real_mv, real_vadd, !l3_lst. apply bind_inv in E. destruct E as (t2 & E2 & E). rewrite (PropReal.C79_reals _ _ _ _ E2). cbn [bind]. rewrite PropNorm.C87_reals.
  apply bind_inv in E. destruct E as (o & EO & E). rewrite EO. cbn [bind]. destruct o as [q2|]; [|exact E].
  apply bind_inv in E. destruct E as (o & EO4 & E). rewrite PropNorm.C87_reals. match goal with |- bind ?a _ = _ => replace a with (@Ok (option R) o) by (symmetry; exact EO4) end. cbn [bind]. destruct o as [q4|]; [|exact E].
  rewrite ?real_rot, ?real_mm, ?emb_cols, ?real_mm, ?real_mv, !l3_lst.
  apply bind_inv in E. destruct E as (t6 & E6 & E). rewrite (PropReal.C79_reals _ _ _ _ E6). cbn [bind]. rewrite PropNorm.C87_reals. exact E.
Qed.
Lemma real_ur_arm z h0 h1 h2 h3 h4 h5 p0 p1 p2 p3 p4 p5 p6 R06 p04 q1 s : perp h2 p2 <> vzero -> perp h2 p3 <> vzero ->
  ur_arm argsort z [h0; h1; h2; h3; h4; h5] [p0; p1; p2; p3; p4; p5; p6] R06 p04 (Fin q1) = Ok s ->
  g_ur_arm RA remainder gsort (gn z) (map emb_v [h0; h1; h2; h3; h4; h5]) (map emb_v [p0; p1; p2; p3; p4; p5; p6]) (emb_m R06) (emb_v p04) q1 = Ok s.
Proof.
  intros NP2 NP3 E. unfold ur_arm in E. unfold g_ur_arm. cbn [index nth_error bind] in E. cbv zeta in *. apply bind_inv in E. destruct E as (Q & E2 & E).
  change (index (map emb_v [h0; h1; h2; h3; h4; h5]) 0) with (@Ok (v3 R) (emb_v h0)). change (index (map emb_v [h0; h1; h2; h3; h4; h5]) 3) with (@Ok (v3 R) (emb_v h3)).
  change (index (map emb_v [h0; h1; h2; h3; h4; h5]) 4) with (@Ok (v3 R) (emb_v h4)). change (index (map emb_v [h0; h1; h2; h3; h4; h5]) 5) with (@Ok (v3 R) (emb_v h5)).
  cbn [bind]. rewrite real_rot, emb_cols, real_mm, real_mv, !l3_lst. rewrite (PropSub2.C107_reals _ _ _ _ _ E2). cbn [bind].
  revert E. apply flat_ok. intros q245 t. apply real_inner; assumption.
Qed.
Lemma ur_arm_six z H P R06 pT q1 s : ur_arm argsort z H P R06 pT q1 = Ok s -> forall x, In x s -> length x = 6%nat.
Proof.
  destruct q1 as [q1|]; [|discriminate]. unfold ur_arm. cbv zeta. intros E x I. do 5 (apply bind_inv in E; destruct E as (? & _ & E)).
  destruct (flat_map_in _ _ _ _ E I) as ([q24 q5] & t & _ & E1 & IT). unfold ur_inner in E1. cbv zeta in E1. do 13 (apply bind_inv in E1; destruct E1 as (? & _ & E1)).
  destruct (flat_map_in _ _ _ _ E1 IT) as (q3 & t' & _ & E3 & IT'). apply bind_inv in E3. destruct E3 as (t2 & _ & E3). apply bind_inv in E3. destruct E3 as (o & _ & E3).
  destruct o as [q2|]; [|injection E3 as <-; destruct IT']. apply bind_inv in E3. destruct E3 as (o & _ & E3). destruct o as [q4|]; [|injection E3 as <-; destruct IT'].
  apply bind_inv in E3. destruct E3 as (t6 & _ & E3). apply bind_inv in E3. destruct E3 as (o & _ & E3). destruct o as [q6|]; injection E3 as <-; [destruct IT' as [<-|[]]; reflexivity|destruct IT'].
Qed.
End Real.

(** A call that returns something over the reals returns the same in the program, with arcsin, np.remainder and the same np.argsort. *)
Theorem C109_reals : forall argsort r pose last sols h p0 p1 p2 p3 p4 p5 p6,
  ur r h p0 p1 p2 p3 p4 p5 p6 -> perp ey p2 <> vzero -> perp ey p3 <> vzero -> sols <> [] ->
  ur_invkin argsort r pose last = Ok sols ->
  g_ur_invkin real_arith asin remainder (fun l => argsort (map Fin l)) (emb_robot r) (emb_t pose) last = Ok sols.
Proof.
  intros argsort r pose last sols h p0 p1 p2 p3 p4 p5 p6 O NP2 NP3 NE E.
  rewrite (FactsUr.ur_unfold argsort r _ _ _ _ _ _ _ _ O) in E.
  assert (PN : forall v, perp ey v <> vzero -> perp h v <> vzero).
  { intros v H. destruct (ur_h _ _ _ _ _ _ _ _ _ O) as [-> | ->]; [exact H|]. rewrite FactsIkGeo.perp_neg. exact H. }
  destruct (FactsUr.ur_shape h (ur_h _ _ _ _ _ _ _ _ _ O)) as (b & EB & ->).
  unfold g_ur_invkin. cbv zeta. rewrite real_unapply. unfold emb_robot. cbn [grH grP grlower grupper].
  rewrite (ur_H _ _ _ _ _ _ _ _ _ O), (ur_P _ _ _ _ _ _ _ _ _ O) in *. rewrite real_minus, real_plus, !real_cols.
  destruct (cols_close ur_minus [ez; h; h; h; vneg ez; h]) as [a|]; [|discriminate]. cbn [bind] in *. rewrite EB. cbn [bind assert_].
  set (T := unapply_aux r pose) in *. unfold emb_t. cbn [gR gp map index nth_error bind].
  rewrite real_ey, !real_vadd, real_dot3, real_mv, real_vsub'. change (g_vneg real_arith (emb_v ez)) with (emb_v (vneg ez)).
  set (z := normalize_joints r last false) in *.
  assert (EZ : @GN real_arith (match rlower r, rupper r with Some l, Some u => Some (l, u) | _, _ => None end) last = PropNorm.emb_norm z) by (unfold z, normalize_joints, PropNorm.emb_norm; destruct (rlower r), (rupper r); reflexivity).
  match goal with |- context [@GN ?a ?b ?c] => replace (@GN a b c) with (PropNorm.emb_norm z) by (symmetry; exact EZ) end.
  set (v1 := vsub (tp T) (mvec (tR T) (vadd p6 p5))) in *. set (d1 := dot ey (vadd (vadd (vadd p1 p2) p3) p4)) in *.
  apply bind_inv in E. destruct E as (N1 & E1 & E). apply bind_inv in E. destruct E as (ss & ES & E).
  assert (NS : exists q1, In (Fin q1) N1).
  { destruct ss as [|x ss]; [destruct last; [discriminate|injection E as <-; contradiction]|].
    destruct (flat_map_in _ _ _ _ ES (or_introl eq_refl)) as (q & t & IQ & EA & _). destruct q as [q|]; [exists q; exact IQ|discriminate EA]. }
  assert (UN : unit3 (vneg ez)) by (unfold unit3, norm2, dot, ez, vneg; cbn; ring).
  assert (Q1 : exists l, l <> [] /\ subproblem4 ey v1 (vneg ez) d1 = map Fin l).
  { destruct NS as [q1 IN]. destruct (subproblem4 ey v1 (vneg ez) d1) as [|a' l] eqn:E4.
    - unfold call_flt, candidates in E1. cbn [filter_out bind] in E1. destruct (nlast z); injection E1 as <-; destruct IN.
    - unfold subproblem4 in E4. destruct (Reqb _ 0).
      + destruct (Rltb _ _); [discriminate|]. exfalso. assert (X : Fin q1 = NaN) by (eapply (nan_only argsort z 0 (a' :: l)); [|exact E1|exact IN]; rewrite <- E4; intros t [<-|[<-|[]]]; reflexivity). discriminate X.
      + destruct (Rltb _ _); [discriminate|]. destruct (Rltb _ _).
        * exfalso. assert (X : Fin q1 = NaN) by (eapply (nan_only argsort z 0 (a' :: l)); [|exact E1|exact IN]; rewrite <- E4; intros t [<-|[<-|[]]]; reflexivity). discriminate X.
        * rewrite <- E4. eexists [_; _]. split; [discriminate|reflexivity]. }
  destruct Q1 as (l & NL & E4). rewrite (proj1 (PropSub4.C106_reals ey v1 (vneg ez) d1 UN) l NL E4). rewrite E4 in E1.
  destruct (real_call_flt argsort z 0 l N1 E1) as (n1 & -> & G1). match goal with |- bind ?a _ = _ => replace a with (@Ok (list R) n1) by (symmetry; exact G1) end. cbn [bind].
  assert (SIX : forall s, In s ss -> length s = 6%nat).
  { intros s I. destruct (flat_map_in _ _ _ _ ES I) as (q & t & _ & EA & IT). exact (ur_arm_six argsort _ _ _ _ _ _ _ EA s IT). }
  assert (GS : flat_map_out (g_ur_arm real_arith remainder (fun l => argsort (map Fin l)) (PropNorm.emb_norm z) (map emb_v [ez; h; h; h; vneg ez; h]) (map emb_v [p0; p1; p2; p3; p4; p5; p6]) (emb_m (tR T)) (emb_v v1)) n1 = Ok ss).
  { clear - ES PN NP2 NP3. revert ss ES. induction n1 as [|q n1 IH]; intros ss ES; cbn [map flat_map_out] in *; [exact ES|].
    apply bind_inv in ES. destruct ES as (s & E1 & ES). apply bind_inv in ES. destruct ES as (t & E2 & ES). pose proof (real_ur_arm argsort z ez h h h (vneg ez) h p0 p1 p2 p3 p4 p5 p6 _ _ _ _ (PN _ NP2) (PN _ NP3) E1) as X.
    match goal with |- bind ?a _ = _ => replace a with (@Ok (list (list R)) s) by (symmetry; exact X) end. cbn [bind].
    match goal with |- bind ?a _ = _ => replace a with (@Ok (list (list R)) t) by (symmetry; exact (IH _ E2)) end. exact ES. }
  match goal with |- bind ?a _ = _ => replace a with (@Ok (list (list R)) ss) by (symmetry; exact GS) end. cbn [bind]. exact (real_sort argsort last ss sols SIX E).
Qed.
Print Assumptions C109_reals.

(** The arm of C64's example with a previous configuration. *)
Example C109_reals_ex : exists sols, sols <> [] /\ ur_invkin FactsInvkin.insertion_argsort PropUr.u_lim PropUr.pose_u (Some PropUr.q_un) = Ok sols /\
  g_ur_invkin real_arith asin remainder (fun l => FactsInvkin.insertion_argsort (map Fin l)) (emb_robot PropUr.u_lim) (emb_t PropUr.pose_u) (Some PropUr.q_un) = Ok sols.
Proof.
  destruct PropUr.C38_ur_ex as (sols & E & NE). exists sols. split; [exact NE|]. split; [exact E|].
  eapply C109_reals; [exact PropUr.u_lim_ur| | |exact NE|exact E].
  - intro H. apply (f_equal vx) in H. unfold perp, ey, vzero, vsub, vscale, dot in H. cbn in H. lra.
  - intro H. apply (f_equal vz) in H. unfold perp, ey, ez, vadd, vzero, vsub, vscale, dot in H. cbn in H. lra.
Qed.
