(** Properties C94 (random poses) and C95 (texts of a Transform). *)
From Coq Require Import Reals List String Ascii Lia Lra Psatz.
From Verif Require Import LinAlg RealAux Py FactsReal FactsLinAlg ModelRot SpecRot FactsRot FactsRot2 ModelTransform ModelMisc SpecMisc.
Import ListNotations.
Open Scope R_scope.

(* ---- C94 ---- *)
Lemma qdot_pos q : 0 <= qdot q q. Proof. destruct q. unfold qdot. cbn. nra. Qed.
Lemma qnorm_zero q : qnorm q = 0 -> q = Q4 0 0 0 0.
Proof.
  intros E. apply sqrt_eq_0 in E; [|apply qdot_pos]. destruct q as [a b c d]. unfold qdot in E. cbn in E.
  pose proof (Rle_0_sqr a). pose proof (Rle_0_sqr b). pose proof (Rle_0_sqr c). pose proof (Rle_0_sqr d). unfold Rsqr in *. f_equal; nra.
Qed.
Lemma unit_scaled q : qnorm q <> 0 -> unit4 (Q4 (q0 q / qnorm q) (q1 q / qnorm q) (q2 q / qnorm q) (q3 q / qnorm q)).
Proof.
  intros N. assert (S : qnorm q * qnorm q = qdot q q) by (apply sqrt_sqrt, qdot_pos). unfold unit4, qdot in *. cbn.
  replace 1 with ((qnorm q * qnorm q) / (qnorm q * qnorm q)) by (field; exact N). rewrite S at 1. field. exact N.
Qed.
(** Every draw other than four zeros gives a rotation. *)
Theorem C94_rotation : forall draw, drawn4 draw -> draw <> Q4 0 0 0 0 -> exists A, random_R draw = Fin A /\ is_SO3 A.
Proof.
  intros q D N. unfold random_R. assert (QN : qnorm q <> 0) by (intros E; apply N, qnorm_zero, E). rewrite (proj2 (Reqb_false _ _) QN).
  eexists. split; [reflexivity|]. apply q2R_SO3, unit_scaled, QN.
Qed.
(** The rotations that can be drawn are those whose axis has no negative component (angle between 0 and pi). *)
Theorem C94_reach : forall A, (exists draw, drawn4 draw /\ random_R draw = Fin A) <->
  exists k t, unit3 k /\ 0 <= vx k /\ 0 <= vy k /\ 0 <= vz k /\ 0 <= t <= PI /\ A = rot k t.
Proof.
  intros A. split.
  - intros (q & (D0 & D1 & D2 & D3) & E). unfold random_R in E. destruct (Reqb (qnorm q) 0) eqn:Z; [discriminate|]. apply Reqb_false in Z. pose proof (unit_scaled q Z) as U. apply (f_equal (fun x => match x with Fin M => M | NaN => A end)) in E. cbn beta iota in E.
    assert (NP : 0 < qnorm q) by (pose proof (sqrt_pos (qdot q q)); unfold qnorm in *; lra).
    assert (P : forall x, drawn x -> 0 <= x / qnorm q) by (intros x [X _]; apply Rmult_le_pos; [lra | left; apply Rinv_0_lt_compat; lra]).
    pose proof (P _ D0) as P0. pose proof (P _ D1) as P1. pose proof (P _ D2) as P2. pose proof (P _ D3) as P3. clear P.
    set (a := q0 q / qnorm q) in *. set (b := q1 q / qnorm q) in *. set (c := q2 q / qnorm q) in *. set (d := q3 q / qnorm q) in *. clearbody a b c d.
    unfold unit4, qdot in U. cbn in U. assert (A1 : a <= 1) by nra. subst A.
    destruct (Req_dec a 1) as [-> | N1].
    + assert (b = 0) by nra. assert (c = 0) by nra. assert (d = 0) by nra. subst. exists ez, 0. split; [unfold unit3, dot, ez; cbn; ring|]. unfold ez. cbn [vx vy vz]. pose proof PI_RGT_0.
      split; [lra|]. split; [lra|]. split; [lra|]. split; [lra|]. rewrite rot_0. unfold q2R. cbn. unfold madd, mscale, mmul, hat, I3, qvec. cbn. f_equal; ring.
    + set (s := sqrt (1 - a * a)). assert (S0 : 0 < s) by (apply sqrt_lt_R0; nra). assert (SS : s * s = 1 - a * a) by (apply sqrt_sqrt; nra).
      exists (V3 (b / s) (c / s) (d / s)), (2 * acos a). cbn [vx vy vz].
      assert (Q : forall x, 0 <= x -> 0 <= x / s) by (intros x X; apply Rmult_le_pos; [lra | left; apply Rinv_0_lt_compat; lra]).
      assert (UK : unit3 (V3 (b / s) (c / s) (d / s))) by (unfold unit3, dot; cbn; replace 1 with ((s * s) / (s * s)) by (field; lra); rewrite SS at 1; replace (1 - a * a) with (b * b + c * c + d * d) by lra; field; lra).
      split; [exact UK|]. split; [auto|]. split; [auto|]. split; [auto|]. split.
      * pose proof (acos_bound a) as [B1 B2]. split; [lra|]. assert (acos a <= PI / 2); [|lra]. apply Rnot_lt_le. intros L. pose proof (cos_lt_0 (acos a) L ltac:(lra)) as C. rewrite cos_acos in C by lra. lra.
      * rewrite <- (half_q2R _ (2 * acos a) UK). f_equal. unfold qmk, vscale. replace (2 * acos a / 2) with (acos a) by field. rewrite cos_acos by lra. rewrite sin_acos by lra.
        replace (sqrt (1 - a²)) with s by reflexivity. cbn. f_equal; field; lra.
  - intros (k & t & U & K1 & K2 & K3 & T & ->). set (c := cos (t / 2)). set (s := sin (t / 2)).
    assert (C0 : 0 <= c) by (apply cos_ge_0; lra). assert (S0 : 0 <= s) by (apply sin_ge_0; lra). assert (CS : s * s + c * c = 1) by (pose proof (sin2_cos2 (t / 2)) as X; unfold Rsqr in X; exact X).
    assert (KB : vx k <= 1 /\ vy k <= 1 /\ vz k <= 1) by (unfold unit3, dot in U; repeat split; nra). destruct KB as (KX & KY & KZ).
    assert (C1 : c <= 1) by nra. assert (S1 : s <= 1) by nra.
    assert (M : forall x, 0 <= x -> x <= 1 -> drawn (s * x / 2)) by (intros x X0 X1; assert (0 <= s * x) by (apply Rmult_le_pos; lra); assert (s * x <= 1 * 1) by (apply Rmult_le_compat; lra); split; lra).
    assert (QN : qnorm (Q4 (c / 2) (s * vx k / 2) (s * vy k / 2) (s * vz k / 2)) = 1 / 2).
    { unfold qnorm. replace (qdot _ _) with (1 / 2 * (1 / 2)); [apply sqrt_square; lra|]. unfold qdot. cbn. unfold unit3, dot in U.
      replace (c / 2 * (c / 2) + s * vx k / 2 * (s * vx k / 2) + s * vy k / 2 * (s * vy k / 2) + s * vz k / 2 * (s * vz k / 2)) with ((c * c + s * s * (vx k * vx k + vy k * vy k + vz k * vz k)) / 4) by field. rewrite U. lra. }
    exists (Q4 (c / 2) (s * vx k / 2) (s * vy k / 2) (s * vz k / 2)). split; [split; [split; cbn; lra|]; split; [|split]; cbn; apply M; assumption|].
    unfold random_R. rewrite QN. rewrite (proj2 (Reqb_false (1 / 2) 0)) by lra. f_equal. rewrite <- (half_q2R k t U). f_equal. unfold qmk, vscale. cbn. fold c s. f_equal; field.
Qed.
(** So not every rotation can be drawn: a quarter turn downwards about z never is. *)
Theorem C94_unreachable : exists A, is_SO3 A /\ forall draw, drawn4 draw -> random_R draw <> Fin A.
Proof.
  assert (Uz : unit3 ez) by (unfold unit3, dot, ez; cbn; ring).
  exists (rot ez (- (PI / 2))). split; [apply rot_SO3; exact Uz|]. intros q D E. destruct (proj1 (C94_reach (rot ez (- (PI / 2)))) (ex_intro _ q (conj D E))) as (k & t & U & K1 & K2 & K3 & T & ER).
  assert (X : m10 (rot ez (- (PI / 2))) - m01 (rot ez (- (PI / 2))) = m10 (rot k t) - m01 (rot k t)) by (rewrite ER; reflexivity).
  assert (F : forall h u, m10 (rot h u) - m01 (rot h u) = 2 * sin u * vz h) by (intros [a b c] u; unfold rot; rot_unfold; cbn; ring).
  rewrite !F in X. rewrite sin_neg, sin_PI2 in X. unfold ez in X. cbn [vz] in X. pose proof (sin_ge_0 t ltac:(lra) ltac:(lra)) as S0. assert (0 <= sin t * vz k) by (apply Rmult_le_pos; lra). lra.
Qed.
Theorem C94_transform : forall d d', drawn4 d -> drawn3 d' -> d <> Q4 0 0 0 0 ->
  exists T, random_transform d d' = Fin T /\ is_SO3 (tR T) /\ drawn3 (tp T) /\ t_parent T = None /\ t_child T = None.
Proof.
  intros d d' D D' N. destruct (C94_rotation d D N) as (A & E & S). unfold random_transform. rewrite E. eexists. split; [reflexivity|]. cbn. auto.
Qed.
(** Four zeros, and only they, give something that is not a number. *)
Theorem C94_zero : forall d d', (random_R d = NaN <-> d = Q4 0 0 0 0) /\ (random_transform d d' = NaN <-> d = Q4 0 0 0 0).
Proof.
  assert (Z : forall d, random_R d = NaN <-> d = Q4 0 0 0 0).
  { intros d. unfold random_R. destruct (Reqb (qnorm d) 0) eqn:E.
    - apply Reqb_true in E. split; [intros _; apply qnorm_zero, E | reflexivity].
    - apply Reqb_false in E. split; [discriminate|]. intros ->. elim E. unfold qnorm, qdot. cbn. replace (0 * 0 + 0 * 0 + 0 * 0 + 0 * 0) with 0 by ring. apply sqrt_0. }
  intros d d'. split; [apply Z|]. rewrite <- (Z d). unfold random_transform. destruct (random_R d); split; congruence.
Qed.
Example C94_ex : drawn4 (Q4 0 (1/2) 0 0) /\ random_R (Q4 0 (1/2) 0 0) = Fin (M3 1 0 0 0 (-1) 0 0 0 (-1)).
Proof.
  split; [repeat split; cbn; lra|]. unfold random_R. replace (qnorm (Q4 0 (1/2) 0 0)) with (1/2).
  - rewrite (proj2 (Reqb_false (1/2) 0)) by lra. f_equal. unfold q2R. cbn. unfold madd, mscale, mmul, hat, I3, qvec. cbn. f_equal; field.
  - unfold qnorm, qdot. cbn. replace (0 * 0 + 1 / 2 * (1 / 2) + 0 * 0 + 0 * 0) with (1/2 * (1/2)) by ring. symmetry. apply sqrt_square. lra.
Qed.
Print Assumptions C94_rotation.
Print Assumptions C94_reach.
Print Assumptions C94_unreachable.
Print Assumptions C94_transform.
Print Assumptions C94_zero.

(* ---- C95 ---- *)
Open Scope string_scope.
Lemma app_nil s : s ++ "" = s. Proof. induction s; cbn; congruence. Qed.
Lemma app_ass a b c : (a ++ b) ++ c = a ++ b ++ c. Proof. induction a; cbn; congruence. Qed.
Lemma quoteless_app a b : quoteless (a ++ b) <-> quoteless a /\ quoteless b.
Proof. induction a; cbn; tauto. Qed.
Lemma cut a : forall b r s, quoteless a -> quoteless b -> a ++ String quote r = b ++ String quote s -> a = b /\ r = s.
Proof.
  induction a as [|c a IH]; intros [|d b] r s A B E; cbn in *.
  - injection E as <-. auto.
  - injection E as <- _. destruct (proj1 B). reflexivity.
  - injection E as -> _. destruct (proj1 A). reflexivity.
  - injection E as <- E. destruct (IH b r s (proj2 A) (proj2 B) E) as [-> ->]. auto.
Qed.
Lemma no_cut a b r : quoteless b -> a ++ String quote r <> b.
Proof. intros B <-. apply quoteless_app in B. destruct B as [_ [B _]]. apply B. reflexivity. Qed.
Definition framed (k : string) (o : option string) : string := match o with Some f => k ++ quoted f | None => "" end.
Lemma framed_inj pk ck post pre pre' p p' c c' : quoteless pk -> quoteless ck -> quoteless post -> quoteless pre -> quoteless pre' ->
  quoteless_opt p -> quoteless_opt p' -> quoteless_opt c -> quoteless_opt c' -> (forall a b, a ++ pk <> b ++ ck) ->
  pre ++ framed pk p ++ framed ck c ++ post = pre' ++ framed pk p' ++ framed ck c' ++ post -> p = p' /\ c = c'.
Proof.
  intros QK QC QP Q1 Q2 O1 O2 O3 O4 D.
  assert (F1 : forall x r s f, pre ++ (x ++ quoted f) ++ r = s -> (pre ++ x) ++ String quote (f ++ String quote r) = s).
  { intros x r s f <-. rewrite !app_ass. unfold quoted. cbn. rewrite !app_ass. reflexivity. }
  assert (F2 : forall x r f, pre' ++ (x ++ quoted f) ++ r = (pre' ++ x) ++ String quote (f ++ String quote r)).
  { intros x r f. rewrite !app_ass. unfold quoted. cbn. rewrite !app_ass. reflexivity. }
  assert (F3 : forall x r f, (x ++ quoted f) ++ r = x ++ String quote (f ++ String quote r)).
  { intros x r f. rewrite !app_ass. unfold quoted. cbn. rewrite !app_ass. reflexivity. }
  assert (P1 : quoteless (pre ++ pk)) by (apply quoteless_app; auto). assert (P2 : quoteless (pre' ++ pk)) by (apply quoteless_app; auto).
  assert (P3 : quoteless (pre ++ ck)) by (apply quoteless_app; auto). assert (P4 : quoteless (pre' ++ ck)) by (apply quoteless_app; auto).
  assert (P5 : quoteless (pre ++ post)) by (apply quoteless_app; auto). assert (P6 : quoteless (pre' ++ post)) by (apply quoteless_app; auto).
  destruct p as [p|], c as [c|], p' as [p'|], c' as [c'|]; cbn [framed quoteless_opt] in *; intros E; cbn [append] in E; rewrite ?F2 in E; try apply F1 in E; rewrite ?F3 in E; try (apply cut in E; [|assumption|assumption]; destruct E as [E0 E]);
    try (destruct (D _ _ E0)); try (destruct (D _ _ (eq_sym E0))); try (exfalso; revert E; apply no_cut; assumption); try (exfalso; symmetry in E; revert E; apply no_cut; assumption);
    try (apply cut in E; [|assumption|assumption]; destruct E as [-> E]); try (exfalso; revert E; apply no_cut; assumption); try (exfalso; symmetry in E; revert E; apply no_cut; assumption); try (split; reflexivity).
  apply cut in E; [|assumption|assumption]. destruct E as [_ E]. apply cut in E; [|assumption|assumption]. destruct E as [-> _]. auto.
Qed.
Lemma suffix_eq a : forall b x y, String.length x = String.length y -> a ++ x = b ++ y -> x = y.
Proof.
  assert (LA : forall a b, String.length (a ++ b) = (String.length a + String.length b)%nat) by (induction a0; cbn; intros; auto).
  induction a as [|c a IH]; intros [|d b] x y L E; cbn in E; auto.
  - subst x. cbn in L. rewrite LA in L. lia.
  - subst y. cbn in L. rewrite LA in L. lia.
  - injection E as _ E. eauto.
Qed.
Lemma quoteless_replace t s : quoteless t -> quoteless s -> quoteless (replace_nl t s).
Proof. intros T. induction s as [|c s IH]; cbn; auto. intros [N S]. destruct (Ascii.eqb c _); [apply quoteless_app; auto|]. cbn. auto. Qed.
Ltac plain := repeat apply quoteless_app; repeat split; cbn; try lia.
Lemma repr_form mt vt T : transform_repr mt vt T = ("Transform(" ++ nl ++ "    R = " ++ replace_nl (nl ++ "        ") (mt (tR T)) ++ nl ++ "    p = " ++ vt (tp T)) ++
  framed (nl ++ "    parent_frame_id = ") (t_parent T) ++ framed (nl ++ "    child_frame_id = ") (t_child T) ++ nl ++ ")" ++ nl.
Proof. unfold transform_repr. destruct (t_parent T), (t_child T); cbn [app String.concat framed]; rewrite ?app_ass; reflexivity. Qed.
Lemma str_form mt vt T : transform_str mt vt T = ("R = " ++ replace_nl (nl ++ "    ") (mt (tR T)) ++ nl ++ "p = " ++ vt (tp T)) ++
  framed (nl ++ "parent_frame_id = ") (t_parent T) ++ framed (nl ++ "child_frame_id = ") (t_child T) ++ nl ++ nl.
Proof. unfold transform_str. destruct (t_parent T), (t_child T); cbn [app String.concat framed]; rewrite ?app_ass; reflexivity. Qed.
(** When the names contain no double quote, the text determines them (the array texts of numpy contain none). *)
Theorem C95_frames : forall mat_text vec_text T T', (forall A, quoteless (mat_text A)) -> (forall v, quoteless (vec_text v)) ->
  quoteless_opt (t_parent T) -> quoteless_opt (t_parent T') -> quoteless_opt (t_child T) -> quoteless_opt (t_child T') ->
  transform_repr mat_text vec_text T = transform_repr mat_text vec_text T' \/ transform_str mat_text vec_text T = transform_str mat_text vec_text T' ->
  t_parent T = t_parent T' /\ t_child T = t_child T'.
Proof.
  intros mt vt T T' QM QV O1 O2 O3 O4 [E | E]; [rewrite !repr_form in E | rewrite !str_form in E]; revert E; apply framed_inj; auto;
    try (rewrite ?quoteless_app; repeat split; auto; cbn; try lia; try (apply quoteless_replace; [cbn; repeat split; lia | auto]); auto; repeat split; lia).
  - intros a b E. change (nl ++ "    parent_frame_id = ") with ((nl ++ "    paren") ++ "t_frame_id = ") in E. change (nl ++ "    child_frame_id = ") with ((nl ++ "    chil") ++ "d_frame_id = ") in E.
    rewrite <- !app_ass in E. apply suffix_eq in E; [discriminate | reflexivity].
  - intros a b E. change (nl ++ "parent_frame_id = ") with ((nl ++ "paren") ++ "t_frame_id = ") in E. change (nl ++ "child_frame_id = ") with ((nl ++ "chil") ++ "d_frame_id = ") in E.
    rewrite <- !app_ass in E. apply suffix_eq in E; [discriminate | reflexivity].
Qed.
(** With quotes in a name it does not. *)
Theorem C95_quotes : forall mat_text vec_text, exists T T', tR T = tR T' /\ tp T = tp T' /\ t_parent T <> t_parent T' /\
  transform_repr mat_text vec_text T = transform_repr mat_text vec_text T'.
Proof.
  intros mt vt. exists (Tf I3 vzero (Some "a") (Some "b")), (Tf I3 vzero (Some ("a" ++ String quote (nl ++ "    child_frame_id = " ++ String quote "b"))) None).
  split; [reflexivity|]. split; [reflexivity|]. split; [discriminate|]. rewrite !repr_form. cbn [t_parent t_child tR tp]. reflexivity.
Qed.
Example C95_ex : quoteless "A" /\ quoteless "v" /\ quoteless "world" /\ transform_repr (fun _ => "A") (fun _ => "v") (Tf I3 vzero (Some "world") None) =
  "Transform(" ++ nl ++ "    R = A" ++ nl ++ "    p = v" ++ nl ++ "    parent_frame_id = " ++ quoted "world" ++ nl ++ ")" ++ nl.
Proof. split; [cbn; lia|]. split; [cbn; lia|]. split; [cbn; lia|]. reflexivity. Qed.
Print Assumptions C95_frames.
Print Assumptions C95_quotes.
