(** What robot6_sphericalwrist_invkin tries, and how the angles it finds lie against exact ones, in binary64. *)
From Coq Require Import Reals ZArith List Bool Lra Lia Psatz Permutation.
From Flocq Require Import Core.Core IEEE754.BinarySingleNaN.
From Verif Require Import LinAlg RealAux Py FactsReal FactsLinAlg ModelRot SpecRot FactsRot FactsNorm SpecSub FactsSub ModelInvkin ModelFloat ModelFloat2 ModelFloat3 ModelFloat6 ModelFloat9 ModelFloat10 ModelFloat11 SpecRound FactsRound FactsB64 FactsExact FactsTrack SpecArc SpecSub4 SpecRpy FactsRpy FactsIk64 FactsPath64 FactsJoint64 FactsArm64 PropPi.
From Verif Require FactsAngle PropB64 PropNorm PropElbow PropReach PropSub4 PropSub2 PropMove PropAngle.
Import ListNotations.
Open Scope R_scope.

(* ---- the search, forwards ---- *)
Lemma flat_map_sub {T U} (g : T -> out (list U)) l : forall r x, flat_map_out g l = Ok r -> In x l -> exists s, g x = Ok s /\ incl s r.
Proof.
  induction l as [|y l IH]; intros r x E I; cbn [flat_map_out] in E; [destruct I|].
  apply bind_inv in E. destruct E as (s & E1 & E). apply bind_inv in E. destruct E as (s' & E2 & E). injection E as <-. destruct I as [-> | I].
  - exists s. split; [exact E1|]. apply incl_appl, incl_refl.
  - destruct (IH _ _ E2 I) as (s2 & H1 & H2). exists s2. split; [exact H1|]. apply incl_appr, H2.
Qed.
Lemma filter_out_has {T} (g : T -> out (option T)) l : forall r t x, filter_out g l = Ok r -> In t l -> g t = Ok (Some x) -> In x r.
Proof.
  induction l as [|y l IH]; intros r t x E I G; cbn [filter_out] in E; [destruct I|].
  apply bind_inv in E. destruct E as (o & E1 & E). apply bind_inv in E. destruct E as (s & E2 & E). destruct I as [-> | I].
  - rewrite G in E1. injection E1 as <-. injection E as <-. left. reflexivity.
  - pose proof (IH _ _ _ E2 I G) as K. destruct o; injection E as <-; [right|]; exact K.
Qed.
Lemma map_out_index_has {T} (l : list T) : forall is res i x, map_out (index l) is = Ok res -> In i is -> nth_error l i = Some x -> In x res.
Proof.
  induction is as [|k is IH]; intros res i x E I N; cbn [map_out] in E; [destruct I|].
  unfold index at 1 in E. destruct (nth_error l k) as [v|] eqn:EV; cbn [bind] in E; [|discriminate].
  destruct (map_out (index l) is) as [ys|e] eqn:EY; cbn [bind] in E; [|discriminate]. injection E as <-.
  destruct I as [-> | I]; [left; rewrite EV in N; injection N as ->; reflexivity|right; exact (IH ys i x eq_refl I N)].
Qed.
(** putting a list into the order of a permutation of its indices keeps every entry *)
Lemma reorder_has {T} (l : list T) is res x : map_out (index l) is = Ok res -> Permutation is (seq 0 (length l)) -> In x l -> In x res.
Proof.
  intros E P I. apply In_nth_error in I. destruct I as (i & N). apply (map_out_index_has l is res i x E); [|exact N].
  apply (Permutation_in i (Permutation_sym P)), in_seq. split; [lia|]. apply nth_error_Some. rewrite N. discriminate.
Qed.
Lemma only_one {T} (g : T -> bool) l y x : filter g l = [y] -> In x l -> g x = true -> x = y.
Proof. intros E I G. assert (J : In x (filter g l)) by (apply filter_In; split; assumption). rewrite E in J. destruct J as [J|[]]. symmetry. exact J. Qed.
Section Search.
Context (A : arith).
Notation num := (num A).
Context (nasin : num -> num) (nrem : num -> num -> num) (argsort : list num -> list nat).
(** np.argsort returns a permutation of the indices; asked only when something is sorted *)
Definition sorts (z : gnormalizer A) : Prop := gnlast z <> None -> forall l, Permutation (argsort l) (seq 0 (length l)).
(** the value passes the test of normalize_joints.__call__ for being close to last_joints *)
Definition close_by (z : gnormalizer A) (j : nat) (x : num) : Prop :=
  forall last lj, gnlast z = Some last -> nth_error last j = Some lj -> nlt A (nabs A (nsub A x lj)) (ndiv A (npi A) (nlit A 2 1)) = true.
Lemma call1_has z j l res t x : sorts z -> close_by z j x -> g_call1 A nrem argsort z j l = Ok res -> In t l -> g_normalize A nrem z j t = Ok (Some x) -> In x res.
Proof.
  intros SO CB EC IT EX. unfold g_call1 in EC. apply bind_inv in EC. destruct EC as (n & EF & EC). pose proof (filter_out_has _ _ _ _ _ EF IT EX) as IN.
  unfold sorts, close_by in *. destruct (gnlast z) as [last|]; [|injection EC as <-; exact IN]. destruct (Nat.ltb (length n) 2); [injection EC as <-; exact IN|].
  unfold index at 1 in EC. destruct (nth_error last j) as [lj|] eqn:EJ; cbn [bind] in EC; [|discriminate]. cbv zeta in EC. specialize (CB last lj eq_refl EJ).
  assert (S : forall r, map_out (index n) (argsort (map (fun t => nabs A (nsub A t lj)) n)) = Ok r -> In x r).
  { intros r ER. apply (reorder_has n _ r x ER); [|exact IN]. eapply Permutation_trans; [apply SO; discriminate|]. rewrite map_length. apply Permutation_refl. }
  destruct (filter _ n) as [|y [|y' ys]] eqn:EG; [exact (S _ EC)| |exact (S _ EC)]. injection EC as <-. left. symmetry. exact (only_one _ _ _ _ EG IN CB).
Qed.
Lemma call2_has z j l res t x y : sorts z -> close_by z (fst j) x -> close_by z (snd j) y -> g_call2 A nrem argsort z j l = Ok res -> In t l ->
  g_normalize A nrem z (fst j) (fst t) = Ok (Some x) -> g_normalize A nrem z (snd j) (snd t) = Ok (Some y) -> In (x, y) res.
Proof.
  intros SO CX CY EC IT EX EY. unfold g_call2 in EC. apply bind_inv in EC. destruct EC as (n & EF & EC).
  assert (IN : In (x, y) n) by (apply (filter_out_has _ _ _ _ _ EF IT); unfold g_normalize_pair; rewrite EX, EY; reflexivity).
  unfold sorts, close_by in *. destruct (gnlast z) as [last|]; [|injection EC as <-; exact IN]. destruct (Nat.ltb (length n) 2); [injection EC as <-; exact IN|].
  unfold index at 1 2 in EC. destruct (nth_error last (fst j)) as [lx|] eqn:E1; cbn [bind] in EC; [|discriminate]. destruct (nth_error last (snd j)) as [ly|] eqn:E2; cbn [bind] in EC; [|discriminate]. cbv zeta in EC.
  specialize (CX last lx eq_refl E1). specialize (CY last ly eq_refl E2).
  assert (S : forall r, map_out (index n) (argsort (map (fun t => l_norm A [nsub A (fst t) lx; nsub A (snd t) ly]) n)) = Ok r -> In (x, y) r).
  { intros r ER. apply (reorder_has n _ r (x, y) ER); [|exact IN]. eapply Permutation_trans; [apply SO; discriminate|]. rewrite map_length. apply Permutation_refl. }
  destruct (filter _ n) as [|p [|p' ps]] eqn:EG; [exact (S _ EC)| |exact (S _ EC)]. injection EC as <-. left. symmetry. apply (only_one _ _ _ _ EG IN). cbn [fst snd]. rewrite CX, CY. reflexivity.
Qed.
Lemma sort_has z last sols res x : sorts z -> gnlast z = last -> g_sort A argsort last sols = Ok res -> In x sols -> In x res.
Proof.
  intros SO EL ES IN. unfold g_sort, sorts in *. rewrite EL in SO. destruct last as [lj|]; [|injection ES as <-; exact IN]. destruct sols as [|s l]; [destruct IN|].
  destruct (Nat.eqb (length s) (length lj)); [|discriminate]. apply (reorder_has (s :: l) _ res x ES); [|exact IN]. eapply Permutation_trans; [apply SO; discriminate|]. rewrite map_length. apply Permutation_refl.
Qed.
Lemma solve_find H0 H1 H2 H3 H4 H5 P0 P1 P2 P3 P4 P5 P6 r pose last sols (t1 q1 : num) : grH r = [H0; H1; H2; H3; H4; H5] ->
  g_robot6_solve A nasin nrem argsort r [P0; P1; P2; P3; P4; P5; P6] pose last = Ok sols ->
  let z := GN (match grlower r, grupper r with Some l, Some u => Some (l, u) | _, _ => None end) last in
  sorts z -> close_by z 0 q1 ->
  In t1 (g_subproblem4 A nasin (g_ey A) (w_v A P6 (gR pose) (gp pose)) (g_vneg A H0) (w_d1 A P1 P2 P3)) -> g_normalize A nrem z 0 t1 = Ok (Some q1) ->
  exists Q3, g_subproblem3 A (l3 A P3) (l3 A P2) (l3 A H2) (l_norm A (l3 A (w_p26 A H0 P0 P1 P6 (gR pose) (gp pose) q1))) = Ok Q3 /\
  forall t3 q3, In t3 Q3 -> g_normalize A nrem z 2 t3 = Ok (Some q3) -> close_by z 2 q3 ->
  exists t2, g_subproblem1 A (l3 A (w_p2 A H2 P2 P3 q3)) (l3 A (w_p26 A H0 P0 P1 P6 (gR pose) (gp pose) q1)) (l3 A H1) = Ok t2 /\
  forall q2, g_normalize A nrem z 1 t2 = Ok (Some q2) ->
  exists Q45, g_subproblem2 A (l3 A H5) (l3 A (g_mv A (g_mm A (v3cols (w_R03 A H0 H1 H2 q1 q2 q3)) (gR pose)) H5)) (l3 A H3) (l3 A H4) = Ok Q45 /\
  forall t4 t5 q4 q5, In (t4, t5) Q45 -> g_normalize A nrem z 3 t4 = Ok (Some q4) -> g_normalize A nrem z 4 t5 = Ok (Some q5) -> close_by z 3 q4 -> close_by z 4 q5 ->
  exists t6, g_subproblem1 A (l3 A H4) (l3 A (g_mv A (g_mm A (v3cols (g_mm A (w_R03 A H0 H1 H2 q1 q2 q3) (g_mm A (g_rot A H3 q4) (g_rot A H4 q5)))) (gR pose)) H4)) (l3 A H5) = Ok t6 /\
  forall q6, g_normalize A nrem z 5 t6 = Ok (Some q6) -> In [q1; q2; q3; q4; q5; q6] sols.
Proof.
  intros EH E z SO CB1 I1 N1. unfold g_robot6_solve in E. cbv zeta in E. rewrite EH in E. cbn [index nth_error bind] in E. fold z in E.
  apply bind_inv in E. destruct E as (L1 & EN & E). apply bind_inv in E. destruct E as (ss & ES & E).
  pose proof (call1_has _ _ _ _ _ _ SO CB1 EN I1 N1) as IQ1. destruct (flat_map_sub _ _ _ _ ES IQ1) as (s1 & E1 & S1).
  unfold g_robot6_arm in E1. cbn [index nth_error bind] in E1. cbv zeta in E1.
  apply bind_inv in E1. destruct E1 as (Q3 & E3 & E1). apply bind_inv in E1. destruct E1 as (N3 & EN3 & E1).
  exists Q3. split; [exact E3|]. intros t3 q3 I3 NQ3 CB3. pose proof (call1_has _ _ _ _ _ _ SO CB3 EN3 I3 NQ3) as IQ3. destruct (flat_map_sub _ _ _ _ E1 IQ3) as (s2 & E2 & S2).
  apply bind_inv in E2. destruct E2 as (t2 & E2 & E4). exists t2. split; [exact E2|]. intros q2 NQ2. rewrite NQ2 in E4. cbn [bind] in E4.
  unfold g_robot6_wrist in E4. cbv zeta in E4. apply bind_inv in E4. destruct E4 as (Q45 & E45 & E4). apply bind_inv in E4. destruct E4 as (N45 & EN45 & E4).
  exists Q45. split; [exact E45|]. intros t4 t5 q4 q5 I45 NQ4 NQ5 CB4 CB5.
  pose proof (call2_has z (3%nat, 4%nat) _ _ (t4, t5) q4 q5 SO CB4 CB5 EN45 I45 NQ4 NQ5) as IQ.
  destruct (flat_map_sub _ _ _ _ E4 IQ) as (s3 & E5 & S3). cbv beta iota zeta in E5. apply bind_inv in E5. destruct E5 as (t6 & E6 & E5).
  exists t6. split; [exact E6|]. intros q6 NQ6. rewrite NQ6 in E5. cbn [bind] in E5. injection E5 as <-. apply (sort_has z last ss sols _ SO eq_refl E). apply S1, S2, S3. left. reflexivity.
Qed.
End Search.

(* ---- angles ---- *)
Lemma same_moves h t u e v : unit3 h -> same_angle e t u -> norm (vsub (rotate h t v) (rotate h u v)) <= e * norm v.
Proof.
  intros U (n & E). rewrite <- (PropMove.rotate_period h u n v). eapply Rle_trans; [apply PropMove.rotate_moves; exact U|]. apply Rmult_le_compat_r; [apply norm_nonneg|].
  replace (t - (u + 2 * PI * IZR n)) with (t - u - 2 * PI * IZR n) by ring. exact E.
Qed.
Lemma moves_same h t u e b v : unit3 h -> 0 < b -> b <= norm (perp h v) -> norm (vsub (rotate h t v) (rotate h u v)) <= e -> 10 * e <= b -> same_angle (18 / 10 * (e / b)) t u.
Proof.
  intros U B0 B E S. pose proof (norm_nonneg (vsub (rotate h t v) (rotate h u v))) as E0.
  set (p := perp h v) in *. set (c := cross h v).
  assert (EQ : vsub (rotate h t v) (rotate h u v) = vadd (vscale (cos t - cos u) p) (vscale (sin t - sin u) c)).
  { unfold p, c, rotate, perp. rewrite (dot_comm v h). generalize (cos t) (cos u) (sin t) (sin u) (dot h v). intros. la_ring. }
  rewrite EQ in E, E0. set (x := cos t - cos u) in *. set (y := sin t - sin u) in *.
  assert (HP : dot p c = 0). { unfold p, c, perp. rewrite dot_vsub_l, dot_vscale_l, dot_cross_r, dot_cross_l. ring. }
  assert (CC : dot c c = dot p p). { rewrite <- !norm_sq. unfold p. rewrite (perp_sq h v U). unfold c. rewrite norm_sq. pose proof (lagrange h v) as X. unfold unit3, norm2 in U, X. rewrite X, U, (dot_comm v h). ring. }
  assert (Q : norm (vadd (vscale x p) (vscale y c)) * norm (vadd (vscale x p) (vscale y c)) = (x * x + y * y) * dot p p).
  { rewrite norm_sq, dot_vadd_l, !dot_vadd_r, !dot_vscale_l, !dot_vscale_r, (dot_comm c p), HP, CC. ring. }
  rewrite <- norm_sq in Q. set (n := norm p) in *. set (N := norm (vadd (vscale x p) (vscale y c))) in *.
  assert (K : (x * x + y * y) * (b * b) <= e * e).
  { apply Rle_trans with ((x * x + y * y) * (n * n)); [apply Rmult_le_compat_l; [pose proof (Rle_0_sqr x); pose proof (Rle_0_sqr y); unfold Rsqr in *; lra|apply Rmult_le_compat; lra]|]. rewrite <- Q. apply Rmult_le_compat; lra. }
  assert (XY : forall a, a * a <= x * x + y * y -> Rabs a <= e / b).
  { intros a HA. apply Rmult_le_reg_r with b; [exact B0|]. replace (e / b * b) with e by (field; lra). rewrite <- (Rabs_right b) at 1 by lra. rewrite <- Rabs_mult. apply Rsqr_incr_0; [|apply Rabs_pos|lra].
    unfold Rsqr. rewrite <- Rabs_mult, Rabs_right by (apply Rle_ge, Rle_0_sqr). assert (a * a * (b * b) <= (x * x + y * y) * (b * b)) by (apply Rmult_le_compat_r; [apply Rmult_le_pos; lra|exact HA]). lra. }
  pose proof (Rle_0_sqr x) as X0. pose proof (Rle_0_sqr y) as Y0. unfold Rsqr in X0, Y0.
  assert (EB : 0 <= e / b <= 1 / 10). { split; [apply Rmult_le_pos; [lra|left; apply Rinv_0_lt_compat; exact B0]|]. apply Rmult_le_reg_r with b; [exact B0|]. replace (e / b * b) with e by (field; lra). lra. }
  apply sincos_same; [exact EB|apply (XY y); lra|apply (XY x); lra].
Qed.
(** a stored angle near an exact one survives the limits of the joint, and the turns towards last_joints lead to it *)
Definition room (L : libm) (dot : list b64 -> list b64 -> b64) (z : gnormalizer (b64_arith L dot)) (j : nat) (m a : R) : Prop :=
  match gnlast z with
  | None => True
  | Some last => exists lj : b64, nth_error last j = Some lj /\ bfin lj /\ Rabs (bval lj - a) <= 5 / 4
  end /\ match gnlimits z with
  | None => True
  | Some (ls, us) => exists l u : b64, nth_error ls j = Some l /\ nth_error us j = Some u /\ bfin l /\ bfin u /\ bval l + m <= a <= bval u - m
  end.
Definition there (L : libm) (dot : list b64 -> list b64 -> b64) (z : gnormalizer (b64_arith L dot)) (e x a : R) : Prop :=
  same_angle e x a /\ (gnlast z <> None -> Rabs (x - a) <= e).
Lemma there_weak L dot z e e' x a : e <= e' -> there L dot z e x a -> there L dot z e' x a.
Proof. intros H [S C]. split; [exact (same_weak _ _ _ _ H S)|]. intros N. specialize (C N). lra. Qed.
Lemma half_lo : bfin (b_div b_pi (b_lit 2 1)) /\ 156 / 100 <= bval (b_div b_pi (b_lit 2 1)).
Proof. split; [reflexivity|]. vm_compute. lra. Qed.
Lemma near_of L dot z j m a e (x : b64) : room L dot z j m a -> Rabs a <= 4 -> bfin x -> there L dot z e (bval x) a -> e <= 3 / 10 -> close_by (b64_arith L dot) z j x.
Proof.
  intros (NL & _) BA FX (_ & C) E3 last lj EL EJ. rewrite EL in NL. destruct NL as (lj' & EJ' & FJ & DJ). rewrite EJ in EJ'. injection EJ' as <-.
  assert (CX : Rabs (bval x - a) <= e) by (apply C; rewrite EL; discriminate). destruct half_lo as [FH HH]. pose proof uu_pos as UP. pose proof uu_small as US.
  assert (DX : Rabs (bval x - bval lj) <= 155 / 100) by (apply Rabs_le_inv in CX, DJ; apply Rabs_le; lra).
  destruct (sub_range x lj FX FJ) as [FD VD]. { apply (PropSub4.rnd_room _ 3); [lia|]. change (bpow radix2 3) with 8. lra. }
  cbn [nlt nabs nsub ndiv npi nlit b64_arith]. apply PropNorm.b_lt_val; [unfold bfin; rewrite is_finite_Babs; exact FD|exact FH|]. pose proof (rnd_err (bval x - bval lj)) as ER. rewrite <- VD in ER. pose proof PropSub4.ee_small' as ES. change (bval (Babs (b_sub x lj))) with (B2R (Babs (b_sub x lj))). rewrite B2R_Babs. fold (bval (b_sub x lj)).
  assert (uu * Rabs (bval x - bval lj) <= uu * 2) by (apply Rmult_le_compat_l; lra). apply Rabs_le_inv in ER, DX. apply Rle_lt_trans with (1555 / 1000); [apply Rabs_le; lra|lra].
Qed.
Lemma turns_mod k : (-16 <= k <= 16)%Z -> bfin (b_mul (b_mul (b_lit 2 1) b_pi) (b_ofZ k)) /\ Rabs (bval (b_mul (b_mul (b_lit 2 1) b_pi) (b_ofZ k))) <= 128.
Proof.
  intros K. assert (IK : In k (map (fun i => Z.of_nat i - 16)%Z (seq 0 33))) by (apply in_map_iff; exists (Z.to_nat (k + 16)); split; [lia|apply in_seq; lia]).
  cbn [seq map] in IK. repeat (destruct IK as [<- | IK]; [split; [reflexivity|apply Rabs_le; vm_compute; lra]|]). destruct IK.
Qed.
Lemma turns_there L dot (lj s : b64) a k : bfin lj -> bfin s -> Rabs (bval s) <= 80 -> Rabs (bval lj) <= 6 -> Rabs (bval lj - a) <= 5 / 4 -> Rabs (bval s + 2 * PI * IZR k - a) <= 1 / 2 ->
  g_turns_to (b64_arith L dot) b_rem lj s = Some k.
Proof.
  intros FJ FS BS BJ DJ DS. pose proof uu_pos as U0. pose proof uu_small as U1. pose proof ee_pos as E0. pose proof pi_hi as PH. pose proof pi_lo as PL. pose proof PropB64.two_pi_ge as TG. pose proof two_pi_val as TV. pose proof b_pi_err as BP.
  destruct (sub_range lj s FJ FS) as [FD VD]. { apply (PropSub4.rnd_room _ 7); [lia|]. change (bpow radix2 7) with 128. apply Rabs_le_inv in BS, BJ. apply Rabs_le. lra. }
  pose proof (rnd_err (bval lj - bval s)) as ED. rewrite <- VD in ED. pose proof PropSub4.ee_small' as EU.
  assert (ED' : Rabs (bval (b_sub lj s) - (bval lj - bval s)) <= 100 * uu). { eapply Rle_trans; [exact ED|]. assert (Rabs (bval lj - bval s) <= 90) by (apply Rabs_le_inv in BS, BJ; apply Rabs_le; lra). assert (uu * Rabs (bval lj - bval s) <= uu * 90) by (apply Rmult_le_compat_l; lra). lra. }
  clear ED VD. assert (TF : bfin (b_mul (b_lit 2 1) b_pi)) by (vm_compute; reflexivity).
  unfold g_turns_to, g_turn. cbn [nsub nfloor nlt npi nmul nlit b64_arith]. cbv zeta. set (tp := b_mul (b_lit 2 1) b_pi) in *. set (d := b_sub lj s) in *.
  destruct (floor_some d tp FD TF ltac:(lra)) as (n & EN). rewrite EN. f_equal.
  destruct (PropB64.floor_le _ _ _ EN) as (_ & _ & _ & N1). pose proof (floor_gt _ _ _ EN) as N2. destruct (PropNorm.rem_val _ _ _ EN) as [FR ER].
  assert (U7 : uu * bval tp <= uu * 7) by (apply Rmult_le_compat_l; lra). assert (FPI : bfin b_pi) by (vm_compute; reflexivity).
  set (N := if b_lt b_pi (b_rem d tp) then (n + 1)%Z else n).
  assert (DN : Rabs (bval d - IZR N * bval tp) <= PI + 25 * uu).
  { unfold N. apply Rabs_le_inv in ER. destruct (b_lt b_pi (b_rem d tp)) eqn:EB.
    - apply (PropNorm.b_lt_val _ _ FPI FR) in EB. rewrite plus_IZR. apply Rabs_le. split; lra.
    - assert (NB : ~ bval b_pi < bval (b_rem d tp)) by (intros Q; apply (PropNorm.b_lt_val _ _ FPI FR) in Q; congruence). apply Rabs_le. split; lra. }
  clearbody N. apply Rabs_le_inv in DN, ED', BS, BJ, DJ, DS.
  assert (NB : -20 < IZR N < 20).
  { assert (X : Rabs (IZR N * bval tp) <= 91) by (apply Rabs_le; lra). rewrite Rabs_mult, (Rabs_right (bval tp)) in X by lra. pose proof (Rabs_pos (IZR N)) as N0. assert (Rabs (IZR N) * 6 <= Rabs (IZR N) * bval tp) by (apply Rmult_le_compat_l; lra). assert (Y : Rabs (IZR N) < 20) by lra. apply Rabs_def2 in Y. lra. }
  assert (TN : Rabs (IZR N * bval tp - 2 * PI * IZR N) <= 80 * uu). { replace (IZR N * bval tp - 2 * PI * IZR N) with (IZR N * (bval tp - 2 * PI)) by ring. rewrite Rabs_mult. replace (80 * uu) with (20 * (4 * uu)) by ring. apply Rmult_le_compat; try apply Rabs_pos; apply Rabs_le; lra. }
  apply Rabs_le_inv in TN. assert (K : -1 < IZR N - IZR k < 1).
  { assert (X : Rabs (2 * PI * (IZR N - IZR k)) <= 5) by (apply Rabs_le; lra). rewrite Rabs_mult, (Rabs_right (2 * PI)) in X by lra. pose proof (Rabs_pos (IZR N - IZR k)) as N0. assert (6 * Rabs (IZR N - IZR k) <= 2 * PI * Rabs (IZR N - IZR k)) by (apply Rmult_le_compat_r; lra). assert (Y : Rabs (IZR N - IZR k) < 1) by lra. apply Rabs_def2 in Y. lra. }
  rewrite <- minus_IZR in K. destruct K as [K1 K2]. apply lt_IZR in K1. apply lt_IZR in K2. lia.
Qed.
Lemma countdown_head k : exists ks, countdown k = k :: ks.
Proof.
  unfold countdown. rewrite seq_S, rev_app_distr. cbn [rev app map Nat.add]. eexists. f_equal. lia.
Qed.
(** the steps after the start: the whole turns towards last_joints lead to the exact angle *)
Lemma finish L dot (last : list b64) j (lj : b64) (lu : option (b64 * b64)) (s : b64) a e B m k : nth_error last j = Some lj -> bfin lj -> Rabs (bval lj - a) <= 5 / 4 -> Rabs a <= 4 ->
  bfin s -> Rabs (bval s) <= B -> B <= 80 -> Rabs (bval s + 2 * PI * IZR k - a) <= e -> e <= 3 / 10 -> e + uu * (5 * B + 20) < m ->
  match lu with None => True | Some (l, u) => bfin l /\ bfin u /\ bval l + m <= a <= bval u - m end ->
  exists x : b64, (let* lj := index last j in
    match g_turns_to (b64_arith L dot) b_rem lj s with
    | None | Some 0%Z => Ok (Some s)
    | Some n =>
        match lu with
        | None => Ok (Some (b_add s (b_mul (b_mul (b_lit 2 1) b_pi) (b_ofZ n))))
        | Some (l, u) =>
            match filter (g_inside (b64_arith L dot) l u) (map (fun m => b_add s (b_mul (b_mul (b_lit 2 1) b_pi) (b_ofZ m))) (countdown n)) with
            | x :: _ => Ok (Some x)
            | [] => Err IndexError
            end
        end
    end) = Ok (Some x) /\ bfin x /\ Rabs (bval x - a) <= e + uu * (5 * B + 20).
Proof.
  intros EJ FJ DJ BA FS BS B8 DS E3 EM LU. pose proof uu_pos as UP. pose proof uu_small as US. pose proof pi_lo as PL. pose proof pi_hi as PH. pose proof (Rabs_pos (bval s)) as B0.
  unfold index. rewrite EJ. cbn [bind].
  assert (BJ : Rabs (bval lj) <= 6) by (apply Rabs_le_inv in DJ, BA; apply Rabs_le; lra). rewrite (turns_there L dot lj s a k FJ FS) by lra.
  assert (KB : Rabs (IZR k) <= (B + 43 / 10) / 6).
  { assert (X : Rabs (2 * PI * IZR k) <= B + 43 / 10) by (apply Rabs_le_inv in BS, BA, DS; apply Rabs_le; lra). rewrite Rabs_mult, (Rabs_right (2 * PI)) in X by lra. pose proof (Rabs_pos (IZR k)) as K0. assert (6 * Rabs (IZR k) <= 2 * PI * Rabs (IZR k)) by (apply Rmult_le_compat_r; lra). lra. }
  assert (KZ : (-16 <= k <= 16)%Z). { apply Rabs_le_inv in KB. assert (K1 : -17 < IZR k) by lra. assert (K2 : IZR k < 17) by lra. apply lt_IZR in K1. apply lt_IZR in K2. lia. }
  assert (X : k <> 0%Z -> let x := b_add s (b_mul (b_mul (b_lit 2 1) b_pi) (b_ofZ k)) in bfin x /\ Rabs (bval x - a) <= e + uu * (5 * B + 20)).
  { intros _ x. destruct (turns_mod k KZ) as [FZ BZ]. destruct (add_range s _ FS FZ) as [FX _]. { apply (PropSub4.rnd_room _ 8); [lia|]. change (bpow radix2 8) with 256. apply Rabs_le_inv in BS, BZ. apply Rabs_le. lra. }
    split; [exact FX|]. destruct (PropNorm.b_turns s k FX) as [_ BT]. fold x in BT. assert (uu * (Rabs (bval s) + 24 * Rabs (IZR k)) <= uu * (5 * B + 20)) by (apply Rmult_le_compat_l; lra). apply Rabs_le_inv in BT, DS. apply Rabs_le. lra. }
  assert (UB : 0 <= uu * (5 * B + 20)) by (apply Rmult_le_pos; lra).
  assert (G : k <> 0%Z -> exists x : b64, match lu with
        | None => Ok (Some (b_add s (b_mul (b_mul (b_lit 2 1) b_pi) (b_ofZ k))))
        | Some (l, u) =>
            match filter (g_inside (b64_arith L dot) l u) (map (fun m => b_add s (b_mul (b_mul (b_lit 2 1) b_pi) (b_ofZ m))) (countdown k)) with
            | x :: _ => Ok (Some x)
            | [] => Err IndexError
            end
        end = Ok (Some x) /\ bfin x /\ Rabs (bval x - a) <= e + uu * (5 * B + 20)).
  { intros K. destruct (X K) as [FX DX]. set (x := b_add s _) in *. exists x. split; [|split; assumption]. destruct lu as [[l u]|]; [|reflexivity]. destruct LU as (FL & FU & R1 & R2).
    destruct (countdown_head k) as (ks & ->). cbn [map filter]. fold x.
    replace (g_inside (b64_arith L dot) l u x) with true; [reflexivity|]. symmetry. unfold g_inside. cbn [nlt b64_arith]. apply Rabs_le_inv in DX.
    rewrite (proj2 (PropNorm.b_lt_val l x FL FX)), (proj2 (PropNorm.b_lt_val x u FX FU)) by lra. reflexivity. }
  destruct k as [|n|n]; [|apply G; discriminate|apply G; discriminate].
  exists s. split; [reflexivity|]. split; [exact FS|]. apply Rabs_le_inv in DS. apply Rabs_le. lra.
Qed.
Lemma turn_fin (t : b64) k : bfin t -> Rabs (bval t) <= 8 -> (k = -1 \/ k = 1)%Z -> bfin (b_add t (b_mul (b_mul (b_lit 2 1) b_pi) (b_ofZ k))).
Proof.
  intros F B K. assert (Z : bfin (b_mul (b_mul (b_lit 2 1) b_pi) (b_ofZ k)) /\ Rabs (bval (b_mul (b_mul (b_lit 2 1) b_pi) (b_ofZ k))) <= 8).
  { destruct K as [-> | ->]; (split; [reflexivity|]; apply Rabs_le; vm_compute; lra). }
  destruct Z as [FZ BZ]. destruct (add_range t _ F FZ) as [FX _]; [|exact FX]. apply (PropSub4.rnd_room _ 5); [lia|]. change (bpow radix2 5) with 32. apply Rabs_le_inv in B, BZ. apply Rabs_le. lra.
Qed.
Lemma norm_found L dot (z : gnormalizer (b64_arith L dot)) j (t : b64) a e m : bfin t -> Rabs (bval t) <= 8 -> same_angle e (bval t) a -> Rabs a <= 4 -> e <= 1 / 4 -> e + 200 * uu <= m -> room L dot z j m a ->
  exists x : b64, g_normalize (b64_arith L dot) b_rem z j t = Ok (Some x) /\ bfin x /\ Rabs (bval x) <= 16 /\ there L dot z (e + 200 * uu) (bval x) a.
Proof.
  intros F B SA BA E4 EM (NL & RM). pose proof uu_pos as UP. pose proof uu_small as US. pose proof pi_lo as PL. pose proof pi_hi as PH.
  set (lu := match gnlimits z with None => Ok None | Some (ls, us) => let* l := index ls j in let* u := index us j in Ok (Some (l, u)) end).
  assert (G : forall o s, g_start (b64_arith L dot) o t = Some s -> bfin s -> bfin s /\ Rabs (bval s) <= 16 /\ same_angle (e + 64 * uu) (bval s) a).
  { intros o s ES Fs. destruct (PropNorm.start_turns L dot o t s ES Fs) as (_ & k & K1 & KB). split; [exact Fs|].
    assert (KB' : Rabs (bval s - (bval t + 2 * PI * IZR k)) <= 64 * uu). { eapply Rle_trans; [exact KB|]. rewrite (Rmult_comm 64). apply Rmult_le_compat_l; lra. }
    split.
    - assert (Rabs (2 * PI * IZR k) <= 7) by (rewrite Rabs_mult, (Rabs_right (2 * PI)) by lra; nra). apply Rabs_le_inv in KB', B, H. apply Rabs_le. lra.
    - destruct SA as (n & SA). exists (n + k)%Z. rewrite plus_IZR. apply Rabs_le_inv in SA, KB'. apply Rabs_le. lra. }
  assert (AF : forall o s, g_start (b64_arith L dot) o t = Some s -> bfin s -> match o with None => True | Some (l, u) => bfin l /\ bfin u /\ bval l + m <= a <= bval u - m end ->
    exists x : b64, match gnlast z with
    | None => Ok (Some s)
    | Some last => let* lj := index last j in
        match g_turns_to (b64_arith L dot) b_rem lj s with
        | None | Some 0%Z => Ok (Some s)
        | Some n =>
            match o with
            | None => Ok (Some (b_add s (b_mul (b_mul (b_lit 2 1) b_pi) (b_ofZ n))))
            | Some (l, u) =>
                match filter (g_inside (b64_arith L dot) l u) (map (fun m => b_add s (b_mul (b_mul (b_lit 2 1) b_pi) (b_ofZ m))) (countdown n)) with
                | x :: _ => Ok (Some x)
                | [] => Err IndexError
                end
            end
        end
    end = Ok (Some x) /\ bfin x /\ Rabs (bval x) <= 16 /\ there L dot z (e + 200 * uu) (bval x) a).
  { intros o s ES Fs LU. destruct (G o s ES Fs) as (_ & Bs & n & Sn). unfold there. destruct (gnlast z) as [last|].
    - destruct NL as (lj & EJ & FJ & DJ). destruct (finish L dot last j lj o s a (e + 64 * uu) 16 m (- n)%Z EJ FJ DJ BA Fs Bs) as (x & EX & FX & DX); try lra; try assumption.
      { rewrite opp_IZR. apply Rabs_le_inv in Sn. apply Rabs_le. lra. }
      exists x. split; [exact EX|]. split; [exact FX|]. split; [apply Rabs_le_inv in DX, BA; apply Rabs_le; lra|]. split; [|intros _; lra]. exists 0%Z. apply Rabs_le_inv in DX. apply Rabs_le. lra.
    - exists s. split; [reflexivity|]. split; [exact Fs|]. split; [exact Bs|]. split; [|intros X; destruct (X eq_refl)]. apply (same_weak (e + 64 * uu)); [lra|]. exists n. exact Sn. }
  unfold g_normalize. fold lu. destruct (gnlimits z) as [[ls us]|] eqn:EL.
  - destruct RM as (l & u & E1 & E2 & Fl & Fu & R1 & R2). unfold lu, index. rewrite E1, E2. cbn [bind].
    destruct (g_start (b64_arith L dot) (Some (l, u)) t) as [s|] eqn:ES.
    + assert (FS : bfin s) by (destruct (PropNorm.start_form _ _ _ _ ES) as [-> | (k & KK & ->)]; [exact F|exact (turn_fin t k F B KK)]).
      destruct (AF _ _ ES FS (conj Fl (conj Fu (conj R1 R2)))) as (x & EX & RX). exists x. split; [|exact RX].
      match goal with |- match ?q with _ => _ end = _ => replace q with (Some s) by (symmetry; exact ES) end. exact EX.
    + exfalso. unfold g_start in ES. cbv zeta in ES.
      assert (IN : forall y : b64, bfin y -> bval l < bval y < bval u -> g_inside (b64_arith L dot) l u y = true).
      { intros y Fy [Y1 Y2]. unfold g_inside. cbn [nlt b64_arith]. rewrite (proj2 (PropNorm.b_lt_val l y Fl Fy) Y1), (proj2 (PropNorm.b_lt_val y u Fy Fu) Y2). reflexivity. }
      assert (IK : forall k, (k = -1 \/ k = 1)%Z -> Rabs (bval t + 2 * PI * IZR k - a) <= e -> g_inside (b64_arith L dot) l u (nadd (b64_arith L dot) (nmul (b64_arith L dot) (g_turn (b64_arith L dot)) (nofZ (b64_arith L dot) k)) t) = true).
      { intros k K H. change (nadd (b64_arith L dot)) with b_add. rewrite PropNorm.b_add_comm. pose proof (turn_fin t k F B K) as FK. apply IN; [exact FK|].
        destruct (PropNorm.b_turns t k FK) as [_ BT]. change (nmul (b64_arith L dot) (g_turn (b64_arith L dot)) (nofZ (b64_arith L dot) k)) with (b_mul (b_mul (b_lit 2 1) b_pi) (b_ofZ k)).
        set (y := bval (b_add t _)) in *. assert (BT' : Rabs (y - (bval t + 2 * PI * IZR k)) <= 63 * uu).
        { eapply Rle_trans; [exact BT|]. rewrite (Rmult_comm 63). apply Rmult_le_compat_l; [lra|]. assert (Rabs (IZR k) <= 1) by (destruct K as [-> | ->]; apply Rabs_le; lra). lra. }
        apply Rabs_le_inv in BT', H. lra. }
      destruct SA as (n & SA). assert (NB : (-1 <= n <= 1)%Z).
      { apply Rabs_le_inv in SA, B, BA. assert (BB : -2 < IZR n < 2) by (split; nra). destruct BB as [B1 B2]. apply lt_IZR in B1. apply lt_IZR in B2. lia. }
      assert (NC : (n = 0 \/ n = 1 \/ n = -1)%Z) by lia. destruct NC as [-> | [-> | ->]].
      * rewrite IN in ES; [discriminate ES|exact F|]. apply Rabs_le_inv in SA. lra.
      * rewrite (IK (-1)%Z) in ES; [|auto|apply Rabs_le_inv in SA; apply Rabs_le; lra]. revert ES; match goal with |- (if ?b then _ else _) = _ -> _ => destruct b end; discriminate.
      * rewrite (IK 1%Z) in ES; [|auto|apply Rabs_le_inv in SA; apply Rabs_le; lra]. revert ES; repeat match goal with |- (if ?b then _ else _) = _ -> _ => destruct b end; discriminate.
  - unfold lu. cbn [bind g_start]. exact (AF None t eq_refl F I).
Qed.

(* ---- a displacement that is met with an error has an exact angle close by ---- *)
Lemma sin_low y : 0 <= y <= 1 / 4 -> 98 / 100 * y <= sin y.
Proof.
  intros H. destruct (pre_sin_bound y 0) as [B _]; [lra|lra|]. unfold sin_approx, sin_term in B. cbn [sum_f_R0 Nat.mul Nat.add fact pow INR] in B.
  assert (X : y * (1 - y * y / 6) <= sin y) by (eapply Rle_trans; [|exact B]; apply Req_le; cbn; field). nra.
Qed.
Lemma root p q k a d del kap m : unit3 k -> norm p * norm q <= m -> Rabs (displacement p q k a - d) <= del -> 0 < kap -> kap <= Rabs (turn_rate p q k a) -> 8 * del * m <= kap * kap -> 8 * del <= kap ->
  exists s, displacement p q k s = d /\ Rabs (s - a) <= 2 * del / kap /\ kap / 2 <= Rabs (turn_rate p q k s).
Proof.
  intros U PQ E K0 K1 S1 S2. pose proof (Rabs_pos (displacement p q k a - d)) as D0.
  set (w := rotate k a q). set (G := turn_rate p q k a) in *. set (c := dot p (perp k w)).
  assert (RA : forall y, rotate k (a + y) q = rotate k y w) by (intros y; unfold w; rewrite <- !rot_rotate by exact U; rewrite <- mvec_mmul, rot_add, (Rplus_comm y a) by exact U; reflexivity).
  assert (FE : forall y, displacement p q k (a + y) = displacement p q k a + G * sin y - c * (1 - cos y)).
  { intros y. unfold displacement, G, turn_rate. rewrite RA. fold w. unfold c, perp, rotate. rewrite !dot_vadd_r, dot_vsub_r, !dot_vscale_r, (dot_comm w k). ring. }
  assert (GE : forall y, turn_rate p q k (a + y) = G * cos y - c * sin y).
  { intros y. unfold G, turn_rate. rewrite RA. fold w. unfold c, perp, rotate. unfold unit3, norm2 in U. generalize (sin y) (cos y). intros s' c'. rewrite dot_vsub_r, dot_vscale_r, (dot_comm w k).
    replace (cross k (vadd (vadd (vscale c' w) (vscale s' (cross k w))) (vscale ((1 - c') * dot k w) k))) with (vadd (vscale c' (cross k w)) (vscale s' (vsub (vscale (dot k w) k) (vscale (dot k k) w)))) by (clear; la_ring).
    rewrite U, dot_vadd_r, !dot_vscale_r, dot_vsub_r, !dot_vscale_r. ring. }
  assert (CM : Rabs c <= m). { unfold c. eapply Rle_trans; [apply abs_dot_le|]. eapply Rle_trans; [|exact PQ]. apply Rmult_le_compat_l; [apply norm_nonneg|]. eapply Rle_trans; [apply FactsTrack.perp_le; exact U|]. unfold w. rewrite PropSub2.turn_norm by exact U. lra. }
  set (u := 2 * del / kap). assert (del0 : 0 <= del) by lra.
  assert (UK : u * kap = 2 * del) by (unfold u; field; lra). assert (u0 : 0 <= u) by (unfold u; apply Rmult_le_pos; [lra|left; apply Rinv_0_lt_compat; exact K0]).
  assert (u4 : u <= 1 / 4) by (apply Rmult_le_reg_r with kap; lra).
  assert (UM : u * m <= kap / 4). { apply Rmult_le_reg_r with kap; [exact K0|]. replace (u * m * kap) with (u * kap * m) by ring. rewrite UK. lra. }
  pose proof (Rabs_pos c) as C0. pose proof (sin_low u (conj u0 u4)) as SL. pose proof (PropMove.one_minus_cos u) as OC. pose proof (COS_bound u) as CB.
  set (f := fun y => displacement p q k a - d + G * sin y - c * (1 - cos y)).
  assert (CF : continuity f) by (unfold f; reg).
  assert (CU : Rabs (c * (1 - cos u)) <= del / 4).
  { rewrite Rabs_mult, (Rabs_right (1 - cos u)) by lra. apply Rle_trans with (m * (u * u / 2)); [apply Rmult_le_compat; lra|]. assert (u * m * u <= kap / 4 * u) by (apply Rmult_le_compat_r; lra). lra. }
  assert (GU : 19 / 10 * del <= Rabs G * sin u). { apply Rle_trans with (kap * (98 / 100 * u)); [lra|]. apply Rmult_le_compat; lra. }
  assert (SG : f (- u) * f u <= 0).
  { unfold f. rewrite sin_neg, cos_neg. apply Rabs_le_inv in E, CU. unfold Rabs in GU. destruct (Rcase_abs G) as [N|N].
    - assert (displacement p q k a - d + G * sin u - c * (1 - cos u) <= 0) by lra. assert (0 <= displacement p q k a - d + G * - sin u - c * (1 - cos u)) by lra. nra.
    - assert (0 <= displacement p q k a - d + G * sin u - c * (1 - cos u)) by lra. assert (displacement p q k a - d + G * - sin u - c * (1 - cos u) <= 0) by lra. nra. }
  destruct (IVT_cor f (- u) u CF ltac:(lra) SG) as (y & YB & YZ). exists (a + y). rewrite FE. split; [unfold f in YZ; lra|]. replace (a + y - a) with y by ring. split; [apply Rabs_le; lra|].
  rewrite GE. pose proof (PropMove.one_minus_cos y) as OY. assert (Y2 : y * y <= 1 / 16) by nra.
  assert (SY : Rabs (sin y) <= u). { pose proof (FactsAngle.sin_lip y 0) as X. rewrite sin_0, !Rminus_0_r in X. eapply Rle_trans; [exact X|]. apply Rabs_le. lra. }
  assert (CS : Rabs (c * sin y) <= kap / 4). { rewrite Rabs_mult. apply Rle_trans with (m * u); [apply Rmult_le_compat; auto using Rabs_pos|lra]. }
  assert (CG : 96 / 100 * kap <= Rabs (G * cos y)). { rewrite Rabs_mult, (Rabs_right (cos y)) by lra. rewrite Rmult_comm. apply Rmult_le_compat; lra. }
  pose proof (Rabs_triang_inv (G * cos y) (c * sin y)) as TI. lra.
Qed.
