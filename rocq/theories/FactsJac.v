(** Facts about robotjacobian and whole turns. *)
From Coq Require Import Reals ZArith List Bool Lra Lia String.
From Verif Require Import LinAlg RealAux Py ModelRot SpecRot FactsReal FactsLinAlg FactsRot FactsDeriv
  ModelTransform ModelRobot ModelKin SpecKin FactsKin.
Import ListNotations.
Open Scope R_scope.

Definition rotcol (A : mat3) (c : vec6) : vec6 := V6 (mvec A (hi3 c)) (mvec A (lo3 c)).

(** Jacobian columns of a chain in the frame of its first joint. *)
Fixpoint jloc (ty : list jtype) (H P : list vec3) (theta : list R) (x : vec3) : list vec6 :=
  match ty, H, P, theta with
  | j :: ty', h :: H', p :: P', t :: theta' =>
      match j with
      | Rotary => V6 h (cross h (mvec (rot h t) (vadd p (chain ty' H' P' theta' x))))
                  :: map (rotcol (rot h t)) (jloc ty' H' P' theta' x)
      | _ => V6 vzero h :: jloc ty' H' P' theta' x
      end
  | _, _, _, _ => []
  end.

Lemma jac_loop_cols ty : forall H P theta A p,
  Forall plain_type ty -> List.length H = List.length ty -> List.length P = List.length ty ->
  (List.length ty <= List.length theta)%nat -> Forall unit3 H -> is_SO3 A ->
  exists l, jac_loop ty H P theta A p = Ok (l, (mmul A (cR ty H P theta), vadd p (mvec A (chain ty H P theta vzero)))) /\
    forall x, jac_cols l (vadd p (mvec A (chain ty H P theta x))) = Ok (map (rotcol A) (jloc ty H P theta x)).
Proof.
  induction ty as [|j ty IH]; intros H P theta A p PT LH LP LT U HA.
  - exists []. simpl. rewrite mmul_I_r, mvec_vzero, vadd_0_r. auto.
  - destruct H as [|h H]; [discriminate|]. destruct P as [|q P]; [discriminate|].
    destruct theta as [|t theta]; [simpl in LT; lia|].
    inversion U as [|? ? Uh UH]; inversion PT as [|? ? Pj PTy]; subst. cbn [List.length] in *.
    destruct Pj as [-> | ->].
    + destruct (IH H P theta (mmul A (rot h t)) (vadd p (mvec (mmul A (rot h t)) q))) as (l & E & C);
        auto; try lia; [apply SO3_mmul; auto using rot_SO3|].
      eexists. split.
      * cbn [jac_loop fk_step]. rewrite E. cbn [bind fst snd]. f_equal. f_equal. f_equal.
        -- cbn [cR]. apply mmul_assoc.
        -- cbn [chain joint_motion]. rewrite <- rot_rotate, mvec_mmul by auto. rewrite !mvec_mmul, !mvec_vadd. v_ring.
      * intros x. cbn [jac_cols chain joint_motion jloc map].
        assert (Ex : vadd p (mvec A (rotate h t (vadd q (chain ty H P theta x)))) =
                vadd (vadd p (mvec (mmul A (rot h t)) q)) (mvec (mmul A (rot h t)) (chain ty H P theta x))).
        { rewrite <- rot_rotate, !mvec_mmul, !mvec_vadd by auto. v_ring. }
        rewrite Ex at 1. rewrite C. cbn [bind]. f_equal. f_equal.
        -- unfold rotcol; simpl. rewrite vadd_vsub_l, hat_cross, mvec_mmul, rot_axis. f_equal.
           rewrite SO3_cross, rot_rotate by auto. reflexivity.
        -- rewrite map_map. apply map_ext. intros c. unfold rotcol; simpl. rewrite !mvec_mmul. reflexivity.
    + destruct (IH H P theta A (vadd (vadd p (vscale t (mvec A h))) (mvec A q))) as (l & E & C); auto; try lia.
      eexists. split.
      * cbn [jac_loop fk_step]. rewrite E. cbn [bind fst snd]. f_equal. f_equal. f_equal.
        cbn [chain joint_motion]. rewrite !mvec_vadd, mvec_vscale. v_ring.
      * intros x. cbn [jac_cols chain joint_motion jloc map].
        assert (Ex : vadd p (mvec A (vadd (vscale t h) (vadd q (chain ty H P theta x)))) =
                vadd (vadd (vadd p (vscale t (mvec A h))) (mvec A q)) (mvec A (chain ty H P theta x))).
        { rewrite !mvec_vadd, mvec_vscale. v_ring. }
        rewrite Ex, C. cbn [bind]. f_equal. f_equal. unfold rotcol; simpl. rewrite mvec_vzero. reflexivity.
Qed.

Lemma jac_apply_rotcol A J : forall qd, jac_apply (map (rotcol A) J) qd = rotcol A (jac_apply J qd).
Proof.
  induction J as [|c J IH]; intros [|d qd]; simpl; try (unfold rotcol; simpl; rewrite !mvec_vzero; reflexivity).
  rewrite IH. unfold rotcol; simpl. rewrite !mvec_vadd, !mvec_vscale. reflexivity.
Qed.

(** Curves: one real function per joint. *)
Definition at_time (qs : list (R -> R)) (s : R) : list R := map (fun f => f s) qs.

Lemma mderiv_left M t M' B : mderiv M t M' -> mderiv (fun s => mmul (M s) B) t (mmul M' B).
Proof.
  intros D. eapply mderiv_eq. apply (mderiv_mmul M (fun _ => B) t M' mzero); auto using mderiv_const.
  generalize (M t). v_ring.
Qed.
Lemma mderiv_right M t M' B : mderiv M t M' -> mderiv (fun s => mmul B (M s)) t (mmul B M').
Proof.
  intros D. eapply mderiv_eq. apply (mderiv_mmul (fun _ => B) M t mzero M'); auto using mderiv_const.
  cbv beta. generalize (M t). v_ring.
Qed.
Lemma vderiv_right v t v' B : vderiv v t v' -> vderiv (fun s => mvec B (v s)) t (mvec B v').
Proof.
  intros D. eapply vderiv_eq. apply (vderiv_mvec (fun _ => B) v t mzero v'); auto using mderiv_const.
  cbv beta. generalize (v t). la_ring.
Qed.
Lemma vderiv_shift v t v' a : vderiv v t v' -> vderiv (fun s => vadd a (v s)) t v'.
Proof.
  intros D. eapply vderiv_eq. apply (vderiv_vadd (fun _ => a) v t vzero v'); auto using vderiv_const. la_ring.
Qed.
Lemma vderiv_shift_r v t v' a : vderiv v t v' -> vderiv (fun s => vadd (v s) a) t v'.
Proof.
  intros D. eapply vderiv_eq. apply (vderiv_vadd v (fun _ => a) t v' vzero); auto using vderiv_const. la_ring.
Qed.
Lemma mderiv_ext f g t d : (forall s, f s = g s) -> mderiv f t d -> mderiv g t d.
Proof.
  intros E ((A&B&C)&(D&F&G)&(K&L&M)).
  assert (X : forall (p : mat3 -> R) l, derivable_pt_lim (fun s => p (f s)) t l -> derivable_pt_lim (fun s => p (g s)) t l).
  { intros p l Q eps He. destruct (Q eps He) as [de Hde]. exists de. intros h. rewrite <- !E. apply Hde. }
  repeat split; apply X; auto.
Qed.
Lemma vderiv_ext f g t d : (forall s, f s = g s) -> vderiv f t d -> vderiv g t d.
Proof.
  intros E (A&B&C).
  assert (X : forall (p : vec3 -> R) l, derivable_pt_lim (fun s => p (f s)) t l -> derivable_pt_lim (fun s => p (g s)) t l).
  { intros p l Q eps He. destruct (Q eps He) as [de Hde]. exists de. intros h. rewrite <- !E. apply Hde. }
  repeat split; apply X; auto.
Qed.
Lemma hat_conj' A w : is_SO3 A -> mmul A (hat w) = mmul (hat (mvec A w)) A.
Proof.
  intros HA. apply mvec_ext. intros v. rewrite !mvec_mmul, !hat_cross. apply SO3_cross; auto.
Qed.
Lemma hat_vadd a b : hat (vadd a b) = madd (hat a) (hat b).
Proof. unfold hat. la_ring. Qed.
Lemma hat_vscale s a : hat (vscale s a) = mscale s (hat a).
Proof. unfold hat. la_ring. Qed.
Lemma mmul_madd_l A B C : mmul (madd A B) C = madd (mmul A C) (mmul B C).
Proof. la_ring. Qed.
Lemma mmul_zero_l C : mmul (hat vzero) C = mzero.
Proof. unfold hat. la_ring. Qed.

Lemma jloc_deriv ty : forall H P qs qd s0,
  Forall plain_type ty -> List.length H = List.length ty -> List.length P = List.length ty ->
  (List.length ty <= List.length qs)%nat -> Forall unit3 H ->
  Forall2 (fun f d => derivable_pt_lim f s0 d) qs qd -> forall x,
  vderiv (fun s => chain ty H P (at_time qs s) x) s0 (lo3 (jac_apply (jloc ty H P (at_time qs s0) x) qd)) /\
  mderiv (fun s => cR ty H P (at_time qs s)) s0
         (mmul (hat (hi3 (jac_apply (jloc ty H P (at_time qs s0) x) qd))) (cR ty H P (at_time qs s0))).
Proof.
  induction ty as [|j ty IH]; intros H P qs qd s0 PT LH LP LT U D x.
  - simpl. split. apply vderiv_const. rewrite mmul_zero_l. apply mderiv_const.
  - destruct H as [|h H]; [discriminate|]. destruct P as [|q P]; [discriminate|].
    destruct qs as [|f qs]; [simpl in LT; lia|]. inversion D as [|? d ? qd' Df Dq]; subst. clear D.
    inversion U as [|? ? Uh UH]; inversion PT as [|? ? Pj PTy]; subst. cbn [List.length] in *.
    destruct (IH H P qs qd' s0) with (x := x) as [Vx Mx]; auto; try lia.
    unfold at_time in *. cbn [map].
    destruct Pj as [-> | ->]; cbn [chain joint_motion cR jloc jac_apply hi3 lo3].
    + rewrite jac_apply_rotcol. cbn [rotcol hi3 lo3].
      remember (jac_apply (jloc ty H P (map (fun g => g s0) qs) x) qd') as w.
      pose proof (mderiv_rot h f s0 d Uh Df) as DR. split.
      * apply (vderiv_ext (fun s => mvec (rot h (f s)) (vadd q (chain ty H P (map (fun g => g s) qs) x)))).
        { intros s. apply rot_rotate; auto. }
        eapply vderiv_eq.
        { apply (vderiv_mvec (fun s => rot h (f s)) (fun s => vadd q (chain ty H P (map (fun g => g s) qs) x)) s0 _ (lo3 w) DR).
          apply vderiv_shift. exact Vx. }
        rewrite mvec_mmul. cbv beta.
        replace (mscale d (hat h)) with (hat (vscale d h)) by apply hat_vscale.
        rewrite hat_cross, cross_vscale_l. reflexivity.
      * eapply mderiv_eq. { apply (mderiv_mmul (fun s => rot h (f s)) (fun s => cR ty H P (map (fun g => g s) qs)) s0 _ _ DR Mx). }
        cbv beta. rewrite hat_vadd, mmul_madd_l, hat_vscale, mmul_assoc. f_equal.
        rewrite <- mmul_assoc, hat_conj', mmul_assoc by auto using rot_SO3. reflexivity.
    + remember (jac_apply (jloc ty H P (map (fun g => g s0) qs) x) qd') as w. split.
      * eapply vderiv_eq.
        { apply (vderiv_vadd (fun s => vscale (f s) h) (fun s => vadd q (chain ty H P (map (fun g => g s) qs) x))).
          - apply (vderiv_vscale f (fun _ => h) s0 d vzero Df). apply vderiv_const.
          - apply vderiv_shift. exact Vx. }
        cbv beta. generalize (f s0). intros. destruct (lo3 w). la_ring.
      * eapply mderiv_eq. exact Mx. f_equal. f_equal. destruct (hi3 w). la_ring.
Qed.

(** The tool point in the last joint frame. *)
Definition tool_point (r : robot) : vec3 := act_opt (rflange r) (act_tool r vzero).

Lemma jacobian_value r theta : wf_robot r -> wf_aux r -> Forall plain_type (rtype r) ->
  (List.length (rtype r) <= List.length theta)%nat ->
  robotjacobian r theta true =
  Ok (map (rotcol (match rbase r with Some B => tR B | None => I3 end))
          (jloc (rtype r) (rH r) (tl (rP r)) theta (tool_point r))).
Proof.
  intros W WA PT L. unfold robotjacobian; simpl. pose proof (wf_P r W) as LP.
  destruct (rP r) as [|p0 P]; [discriminate|]. simpl in LP. cbn [tl].
  destruct (jac_loop_cols (rtype r) (rH r) P theta I3 p0) as (l & E & C); auto using SO3_I;
    try apply (wf_H r W); try lia; try apply (wf_unit r W).
  rewrite E. cbn [bind]. specialize (C (tool_point r)).
  assert (EP : (match rptool r with
    | Some pt => vadd (match rflange r with Some F => vadd (vadd p0 (mvec I3 (chain (rtype r) (rH r) P theta vzero))) (mvec (mmul I3 (cR (rtype r) (rH r) P theta)) (tp F)) | None => (vadd p0 (mvec I3 (chain (rtype r) (rH r) P theta vzero))) end)
        (mvec (mmul (mmul I3 (cR (rtype r) (rH r) P theta)) (match rflange r with Some F => tR F | None => I3 end)) pt)
    | None => match rflange r with Some F => vadd (vadd p0 (mvec I3 (chain (rtype r) (rH r) P theta vzero))) (mvec (mmul I3 (cR (rtype r) (rH r) P theta)) (tp F)) | None => (vadd p0 (mvec I3 (chain (rtype r) (rH r) P theta vzero))) end
    end) = vadd p0 (mvec I3 (chain (rtype r) (rH r) P theta (tool_point r)))).
  { rewrite (chain_affine _ _ _ _ (tool_point r)) by apply (wf_unit r W).
    rewrite !mmul_I_l, !mvec_I. unfold tool_point, act_tool.
    destruct (rptool r) as [pt|] eqn:Ept.
    - destruct (rRtool r) as [A|] eqn:EA; [|apply (wf_pair r WA) in EA; congruence].
      destruct (rflange r) as [F|]; simpl; unfold act; rewrite ?mvec_vzero, ?vadd_0_l, ?mvec_mmul, ?mvec_vadd, ?mvec_I; v_ring.
    - replace (rRtool r) with (@None mat3) by (symmetry; apply (wf_pair r WA); auto).
      destruct (rflange r) as [F|]; simpl; unfold act; rewrite ?mvec_vzero, ?vadd_0_l; v_ring. }
  rewrite EP, C. cbn [bind]. destruct (rbase r) as [B|].
  - rewrite map_map. f_equal. apply map_ext. intros c. unfold rotcol; simpl. rewrite !mvec_I. reflexivity.
  - reflexivity.
Qed.

(** Angular and linear parts of robotjacobian are the derivative of fwdkin. *)
Lemma jacobian_deriv r qs qd s0 : wf_robot r -> wf_aux r -> Forall plain_type (rtype r) ->
  (List.length (rtype r) <= List.length qs)%nat ->
  Forall2 (fun f d => derivable_pt_lim f s0 d) qs qd ->
  exists J T,
    robotjacobian r (at_time qs s0) true = Ok J /\
    (forall s, fwdkin r (at_time qs s) true = Ok (T s)) /\
    vderiv (fun s => tp (T s)) s0 (lo3 (jac_apply J qd)) /\
    mderiv (fun s => tR (T s)) s0 (mmul (cross_matrix (hi3 (jac_apply J qd))) (tR (T s0))).
Proof.
  intros W WA PT L D.
  assert (La : forall s, (List.length (rtype r) <= List.length (at_time qs s))%nat) by (intros; unfold at_time; rewrite map_length; auto).
  eexists. exists (fun s => apply_aux r (bare_pose r (at_time qs s))).
  split. { apply jacobian_value; auto. }
  split. { intros s. apply fwdkin_ignore; auto. }
  rewrite jac_apply_rotcol. cbn [rotcol hi3 lo3].
  destruct (jloc_deriv (rtype r) (rH r) (tl (rP r)) qs qd s0) with (x := tool_point r) as [V M];
    auto using (wf_H r W), (wf_unit r W).
  { pose proof (wf_P r W). destruct (rP r); simpl in *; try discriminate; lia. }
  remember (jac_apply (jloc (rtype r) (rH r) (tl (rP r)) (at_time qs s0) (tool_point r)) qd) as w.
  split.
  - assert (E : forall s, match rbase r with
                     | Some B => vadd (mvec (tR B) (vadd (hd vzero (rP r)) (chain (rtype r) (rH r) (tl (rP r)) (at_time qs s) (tool_point r)))) (tp B)
                     | None => vadd (hd vzero (rP r)) (chain (rtype r) (rH r) (tl (rP r)) (at_time qs s) (tool_point r)) end
              = tp (apply_aux r (bare_pose r (at_time qs s)))).
    { intros s. transitivity (act (apply_aux r (bare_pose r (at_time qs s))) vzero).
      - rewrite act_fwdkin by auto. unfold robot_point. fold (tool_point r). destruct (rbase r); reflexivity.
      - unfold act. rewrite mvec_vzero, vadd_0_l. reflexivity. }
    eapply vderiv_ext. exact E.
    destruct (rbase r) as [B|].
    + apply (vderiv_shift_r (fun s => mvec (tR B) (vadd (hd vzero (rP r)) (chain (rtype r) (rH r) (tl (rP r)) (at_time qs s) (tool_point r))))).
      apply vderiv_right. apply vderiv_shift. exact V.
    + rewrite mvec_I. apply vderiv_shift. exact V.
  - set (A := match rbase r with Some B => tR B | None => I3 end).
    set (C := mmul (match rflange r with Some F => tR F | None => I3 end) (match tool_transform r with Some F => tR F | None => I3 end)).
    assert (E : forall s, mmul A (mmul (cR (rtype r) (rH r) (tl (rP r)) (at_time qs s)) C) = tR (apply_aux r (bare_pose r (at_time qs s)))).
    { intros s. unfold A, C, apply_aux. destruct (rbase r), (rflange r), (tool_transform r); simpl;
        rewrite ?mmul_I_r, ?mmul_I_l, ?mmul_assoc; reflexivity. }
    eapply mderiv_ext. exact E. eapply mderiv_eq.
    { apply mderiv_right, mderiv_left. exact M. }
    rewrite <- hat_cross_matrix, <- E.
    assert (HA : is_SO3 A). { unfold A. pose proof (wf_base r WA). destruct (rbase r); auto using SO3_I. }
    rewrite <- (mmul_assoc (hat _) A), <- hat_conj' by auto. rewrite !mmul_assoc. reflexivity.
Qed.

(* ---------- number of columns ---------- *)
(** Columns for a sequence of joint types: one per joint, two for a mobile group of three
    opened by a type 3 joint; none when such a group is cut short. *)
Fixpoint column_count (ty : list jtype) : option nat :=
  match ty with
  | [] => Some 0%nat
  | Mobile3 :: _ :: _ :: ty' => option_map (fun n => (2 + n)%nat) (column_count ty')
  | Mobile3 :: _ => None
  | _ :: ty' => option_map S (column_count ty')
  end.
Lemma jac_loop_ok ty : forall H P theta A p,
  List.length H = List.length ty -> List.length P = List.length ty -> (List.length ty <= List.length theta)%nat ->
  exists l R p', jac_loop ty H P theta A p = Ok (l, (R, p')) /\ map (fun e => fst (fst (fst e))) l = ty.
Proof.
  induction ty as [|j ty IH]; intros H P theta A p LH LP LT.
  - simpl. eauto.
  - destruct H as [|h H]; [discriminate|]. destruct P as [|q P]; [discriminate|].
    destruct theta as [|t theta]; [simpl in LT; lia|]. cbn [List.length] in *. cbn [jac_loop].
    destruct (fk_step j h q t A p) as [A' p'].
    destruct (IH H P theta A' p') as (l & R' & pp & E & F); try lia. rewrite E. simpl.
    do 3 eexists. split. reflexivity. simpl. rewrite F. reflexivity.
Qed.
Lemma jac_cols_count n : forall l pOT, (List.length l <= n)%nat ->
  match column_count (map (fun e => fst (fst (fst e))) l) with
  | Some n => exists J, jac_cols l pOT = Ok J /\ List.length J = n
  | None => jac_cols l pOT = Err IndexError
  end.
Proof.
  induction n as [|n IH]; intros l pOT L; destruct l as [|[[[j h] p] t] l]; try (simpl in L; lia);
    try (simpl; exists []; auto).
  simpl in L. pose proof (IH l pOT ltac:(lia)) as Q.
  destruct j.
  1,2,3: simpl; destruct (column_count _) as [m|]; simpl;
    [destruct Q as (J & -> & <-); simpl; eexists; split; reflexivity | rewrite Q; reflexivity].
  destruct l as [|[[[j1 h1] p1] t1] [|[[[j2 h2] p2] t2] l]]; try reflexivity.
  simpl in L. clear Q. pose proof (IH l pOT ltac:(lia)) as Q. simpl.
  destruct (column_count _) as [m|]; simpl;
    [destruct Q as (J & -> & <-); simpl; eexists; split; reflexivity | rewrite Q; reflexivity].
Qed.
Lemma jacobian_count r theta : wf_robot r -> (List.length (rtype r) <= List.length theta)%nat ->
  match column_count (rtype r) with
  | Some n => exists J, robotjacobian r theta true = Ok J /\ List.length J = n
  | None => robotjacobian r theta true = Err IndexError
  end.
Proof.
  intros W L. unfold robotjacobian; simpl. pose proof (wf_P r W) as LP.
  destruct (rP r) as [|p0 P]; [discriminate|]. simpl in LP.
  destruct (jac_loop_ok (rtype r) (rH r) P theta I3 p0) as (l & A & p & E & F); auto using (wf_H r W); try lia.
  rewrite E. cbn [bind].
  match goal with |- context [jac_cols l ?x] => pose proof (jac_cols_count (List.length l) l x (le_n _)) as Q end.
  rewrite F in Q. destruct (column_count (rtype r)).
  - destruct Q as (J & -> & <-). cbn [bind]. destruct (rbase r); eexists; split; eauto. apply map_length.
  - rewrite Q. reflexivity.
Qed.
Lemma column_count_plain ty : Forall (fun j => j <> Mobile3) ty -> column_count ty = Some (List.length ty).
Proof.
  induction 1 as [|j ty N F IH]; auto. destruct j; simpl; rewrite ?IH; auto. congruence.
Qed.

(* ---------- whole turns ---------- *)
Lemma same_turns_fk ty : forall H P a b A p, same_turns ty a b -> fk_loop ty H P a A p = fk_loop ty H P b A p.
Proof.
  induction ty as [|j ty IH]; intros H P a b A p S; auto.
  inversion S as [| ? ? a0 b0 ? ? Hj An St | ? ? a0 ? ? St]; subst; simpl; destruct H; auto; destruct P; auto.
  - replace (fk_step j v v0 a0 A p) with (fk_step j v v0 b0 A p).
    2:{ destruct Hj as [-> | ->]; simpl; rewrite (rot_ang_eq v a0 b0); auto. }
    destruct (fk_step j v v0 b0 A p). auto.
  - destruct (fk_step j v v0 a0 A p). auto.
Qed.
Lemma same_turns_len ty a b : same_turns ty a b -> List.length a = List.length b.
Proof. induction 1; simpl; auto. Qed.
Lemma fwdkin_turns r a b : same_turns (rtype r) a b -> fwdkin r a true = fwdkin r b true.
Proof.
  intros S. unfold fwdkin; simpl. destruct (rP r); auto. rewrite (same_turns_fk _ _ _ _ _ _ _ S). reflexivity.
Qed.
(** Recorded joints equal up to whole turns. *)
Definition rec_eq (e f : jtype * vec3 * vec3 * R) : Prop :=
  fst e = fst f /\ ang_eq (snd e) (snd f).
Definition jac_eq (x y : out (list (jtype * vec3 * vec3 * R) * (mat3 * vec3))) : Prop :=
  match x, y with
  | Ok a, Ok b => snd a = snd b /\ Forall2 rec_eq (fst a) (fst b)
  | Err e, Err e' => e = e'
  | _, _ => False
  end.
Lemma same_turns_jac ty : forall H P a b A p, same_turns ty a b ->
  jac_eq (jac_loop ty H P a A p) (jac_loop ty H P b A p).
Proof.
  induction ty as [|j ty IH]; intros H P a b A p S; [simpl; auto|].
  assert (K : forall (la lb : list R) a0 b0, (forall h q, fk_step j h q a0 A p = fk_step j h q b0 A p) -> ang_eq a0 b0 ->
     same_turns ty la lb -> jac_eq (jac_loop (j :: ty) H P (a0 :: la) A p) (jac_loop (j :: ty) H P (b0 :: lb) A p)).
  { intros la lb a0 b0 E An St. cbn [jac_loop].
    destruct H as [|h H]; [reflexivity|]. destruct P as [|q P]; [reflexivity|].
    rewrite E. destruct (fk_step j h q b0 A p) as [A' p'].
    specialize (IH H P la lb A' p' St). unfold jac_eq in *.
    destruct (jac_loop ty H P la A' p') as [[l1 q1]|], (jac_loop ty H P lb A' p') as [[l2 q2]|]; simpl in *; try tauto.
    destruct IH as [-> F]. split; auto. constructor; auto. split; auto. }
  inversion S as [| ? ? a0 b0 ? ? Hj An St | ]; subst.
  - apply K; auto. intros. destruct Hj as [-> | ->]; simpl; rewrite (rot_ang_eq h a0 b0); auto.
  - apply K; auto. apply ang_eq_refl.
Qed.
Lemma jac_cols_eq n : forall l l' x, (List.length l <= n)%nat -> Forall2 rec_eq l l' -> jac_cols l x = jac_cols l' x.
Proof.
  induction n as [|n IH]; intros l l' x L F; inversion F as [|e f l1 l2 [E1 E2] F']; subst; auto; [simpl in L; lia|].
  destruct e as [[[j h] p] t], f as [[[j' h'] p'] t']. simpl in E1, E2. inversion E1; subst. simpl in L.
  destruct j'; try (simpl; rewrite (IH l1 l2) by (auto; lia); reflexivity).
  inversion F' as [|e f l3 l4 [G1 G2] F'']; subst; auto.
  inversion F'' as [|e' f' l5 l6 [I1 I2] F3]; subst; auto.
  destruct e as [[[? ?] ?] ?], f as [[[? ?] ?] ?], e' as [[[? ?] ?] ?], f' as [[[? ?] ?] ?]. simpl in I1, I2, L. inversion I1; subst.
    cbn [jac_cols]. rewrite (IH l5 l6) by (auto; lia). rewrite (rot_ang_eq _ _ _ I2). reflexivity.
Qed.
Lemma jacobian_turns r a b : same_turns (rtype r) a b -> robotjacobian r a true = robotjacobian r b true.
Proof.
  intros S. unfold robotjacobian; simpl. destruct (rP r) as [|p0 P]; auto.
  pose proof (same_turns_jac _ (rH r) P a b I3 p0 S) as E. unfold jac_eq in E.
  destruct (jac_loop _ _ P a _ _) as [[l [A p]]|e], (jac_loop _ _ P b _ _) as [[l' [A' p']]|e']; simpl in *; try tauto; try congruence.
  destruct E as [E F]. inversion E; subst. rewrite (jac_cols_eq (List.length l) l l') by auto. reflexivity.
Qed.

(* ---------- constructor ---------- *)
Lemma cols3_spec l : Forall (fun c => List.length c = 3%nat) l -> exists vs, cols3 l = Some vs /\
  map (fun v => [vx v; vy v; vz v]) vs = l.
Proof.
  induction 1 as [|c l L F (vs & E & M)]. exists []; auto.
  destruct c as [|a [|b [|d [|? ?]]]]; try discriminate. simpl. rewrite E.
  eexists; split. reflexivity. simpl. congruence.
Qed.
Definition jcode (j : jtype) : Z := match j with Rotary => 0 | Prismatic => 1 | Mobile2 => 2 | Mobile3 => 3 end.
Lemma jtype_of_code z : (match jtype_of z with Some _ => true | None => false end) = true <-> (0 <= z <= 3)%Z.
Proof.
  split; intros H.
  - destruct z as [|p|p]; simpl in H; try discriminate; try lia. do 3 (destruct p; simpl in H; try discriminate; try lia).
  - assert (z = 0 \/ z = 1 \/ z = 2 \/ z = 3)%Z as [-> | [-> | [-> | ->]]] by lia; reflexivity.
Qed.
Lemma jtypes_of_spec l : Forall (fun z => (0 <= z <= 3)%Z) l -> exists js, jtypes_of l = Some js /\ map jcode js = l.
Proof.
  induction 1 as [|z l L F (js & E & M)]. exists []; auto.
  assert (z = 0 \/ z = 1 \/ z = 2 \/ z = 3)%Z as [-> | [-> | [-> | ->]]] by lia; simpl; rewrite E;
   eexists; (split; [reflexivity|]); simpl; congruence.
Qed.
Lemma assert_bind {A} b (k : out A) : (let* _ := assert_ b in k) = if b then k else Err AssertionError.
Proof. destruct b; reflexivity. Qed.
Lemma forallb_shape66 M : forallb shape66 M = true <->
  Forall (fun m => List.length m = 6%nat /\ Forall (fun row => List.length row = 6%nat) m) M.
Proof.
  rewrite forallb_forall, Forall_forall. unfold shape66.
  split; intros H m I; specialize (H m I).
  - apply andb_true_iff in H. destruct H as [A B]. apply Nat.eqb_eq in A. split; auto.
    rewrite forallb_forall in B. apply Forall_forall. intros r Ir. apply Nat.eqb_eq, B; auto.
  - destruct H as [A B]. apply andb_true_iff. split. apply Nat.eqb_eq; auto.
    apply forallb_forall. rewrite Forall_forall in B. intros r Ir. apply Nat.eqb_eq, B; auto.
Qed.
Lemma opt_len_iff {A} (o : option (list A)) n : opt_len_ok o n = true <-> len_if o n.
Proof. unfold opt_len_ok, len_if. destruct o; [apply Nat.eqb_eq|tauto]. Qed.

Lemma Robot_init_cases a : rectangular (aH a) -> rectangular (aP a) ->
  (valid_args a /\ exists r, Robot_init a = Ok r) \/ (~ valid_args a /\ Robot_init a = Err AssertionError).
Proof.
  intros RH RP. unfold Robot_init. rewrite !assert_bind.
  destruct (forallb (fun c => isclose _ _ (norm_l c) 1) _) eqn:E1.
  2:{ right. split; auto. intros V. apply not_true_iff_false in E1. apply E1. apply forallb_forall. intros c I.
      apply isclose_iff. pose proof (va_unit a V) as F. rewrite Forall_forall in F. specialize (F c I).
      unfold np_close. rewrite Rabs_R1. unfold norm_l. lra. }
  assert (V1 : Forall (fun c => Rabs (sqrt (fold_right (fun x s => x * x + s) 0 c) - 1) <= 1/100000000 + 1/100000) (columns (aH a))).
  { apply Forall_forall. intros c I. rewrite forallb_forall in E1. specialize (E1 c I). apply isclose_iff in E1.
    unfold np_close in E1. rewrite Rabs_R1 in E1. unfold norm_l in E1. lra. }
  clear E1. destruct (forallb _ (atype a)) eqn:E2.
  2:{ right. split; auto. intros V. apply not_true_iff_false in E2. apply E2. apply forallb_forall. intros z I.
      apply jtype_of_code. pose proof (va_types a V) as F. rewrite Forall_forall in F. auto. }
  assert (V2 : Forall (fun z => (0 <= z <= 3)%Z) (atype a)).
  { apply Forall_forall. intros z I. rewrite forallb_forall in E2. apply jtype_of_code. apply (E2 z I). }
  clear E2. destruct (Nat.eqb_spec (nrows (aH a)) 3) as [V3|N]; [|right; split; auto; intros V; apply N, (va_H3 a V)].
  destruct (Nat.eqb_spec (nrows (aP a)) 3) as [V4|N]; [|right; split; auto; intros V; apply N, (va_P3 a V)].
  cbn [andb].
  destruct (Nat.eqb_spec (List.length (columns (aH a)) + 1) (List.length (columns (aP a)))) as [V5|N].
  2:{ right; split; auto. intros V. apply N. rewrite (va_H a V), (va_P a V). lia. }
  destruct (Nat.eqb_spec (List.length (columns (aH a))) (List.length (atype a))) as [V6|N]; [|right; split; auto; intros V; apply N, (va_H a V)].
  cbn [andb].
  assert (RHL : exists lims, match alower a, aupper a with
    | Some l, Some u =>
        let* _ := assert_ (List.length l =? List.length (atype a))%nat in
        let* _ := assert_ (List.length u =? List.length (atype a))%nat in
        Ok (Some l, Some u)
    | _, _ => Ok (None, None)
    end = lims /\ ((exists x, lims = Ok x /\ (forall l u, alower a = Some l -> aupper a = Some u ->
            List.length l = List.length (atype a) /\ List.length u = List.length (atype a))) \/
            (lims = Err AssertionError /\ ~ (forall l u, alower a = Some l -> aupper a = Some u ->
            List.length l = List.length (atype a) /\ List.length u = List.length (atype a))))).
  { eexists. split. reflexivity. destruct (alower a) as [l|]; [|left; eexists; split; [reflexivity|intros; discriminate]].
    destruct (aupper a) as [u|]; [|left; eexists; split; [reflexivity|intros; discriminate]].
    rewrite !assert_bind.
    destruct (Nat.eqb_spec (List.length l) (List.length (atype a))); [destruct (Nat.eqb_spec (List.length u) (List.length (atype a)))|].
    - left. eexists; split; [reflexivity|]. intros ? ? [= <-] [= <-]. auto.
    - right. split; auto. intros Q. destruct (Q l u); auto.
    - right. split; auto. intros Q. destruct (Q l u); auto. }
  destruct RHL as (lims & -> & [(x & -> & V7)|[-> N]]); [|right; split; auto; intros V; apply N, (va_lims a V)].
  cbv beta iota delta [bind assert_].
  destruct (opt_len_ok (avel a) _) eqn:E; [apply opt_len_iff in E as V8|right; split; auto; intros V; apply not_true_iff_false in E; apply E, opt_len_iff, (va_vel a V)].
  clear E. destruct (opt_len_ok (aacc a) _) eqn:E; [apply opt_len_iff in E as V9|right; split; auto; intros V; apply not_true_iff_false in E; apply E, opt_len_iff, (va_acc a V)].
  clear E.
  assert (HM : (match aM a with
         | None => True
         | Some M => List.length M = S (List.length (atype a)) /\
                     Forall (fun m => List.length m = 6%nat /\ Forall (fun row => List.length row = 6%nat) m) M
         end /\ match aM a with None => Ok tt | Some M =>
            let* _ := assert_ (List.length M =? List.length (columns (aP a)))%nat in assert_ (forallb shape66 M) end = Ok tt) \/
      (~ (match aM a with
         | None => True
         | Some M => List.length M = S (List.length (atype a)) /\
                     Forall (fun m => List.length m = 6%nat /\ Forall (fun row => List.length row = 6%nat) m) M
         end) /\ match aM a with None => Ok tt | Some M =>
            let* _ := assert_ (List.length M =? List.length (columns (aP a)))%nat in assert_ (forallb shape66 M) end = Err AssertionError)).
  { destruct (aM a) as [M|]; [|auto]. rewrite assert_bind.
    destruct (Nat.eqb_spec (List.length M) (List.length (columns (aP a)))) as [L|L].
    - destruct (forallb shape66 M) eqn:E.
      + left. split; auto. split. lia. apply forallb_shape66; auto.
      + right. split; auto. intros [_ Q]. apply forallb_shape66 in Q. congruence.
    - right. split; auto. intros [Q _]. apply L. lia. }
  cbv beta iota delta [bind assert_] in HM. destruct HM as [[V10 ->]|[N ->]]; [|right; split; auto; intros V; apply N, (va_M a V)].
  cbv beta iota delta [bind assert_].
  destruct (opt_len_ok (anames a) _) eqn:E; [apply opt_len_iff in E as V11|right; split; auto; intros V; apply not_true_iff_false in E; apply E, opt_len_iff, (va_names a V)].
  left. split.
  - constructor; auto. lia.
  - unfold rectangular in RH, RP. rewrite V3 in RH. rewrite V4 in RP.
    destruct (cols3_spec _ RH) as (H & -> & _). destruct (cols3_spec _ RP) as (P & -> & _).
    destruct (jtypes_of_spec _ V2) as (ty & -> & _). eauto.
Qed.

Lemma cols3_map l : forall vs, cols3 l = Some vs -> map (fun v => [vx v; vy v; vz v]) vs = l.
Proof.
  induction l as [|c l IH]; simpl; intros vs E. inversion E; auto.
  destruct (as_row3 c) as [v|] eqn:Ec; [|discriminate]. destruct (cols3 l) as [w|]; [|discriminate].
  inversion E; subst. simpl. rewrite (IH w eq_refl). f_equal.
  destruct c as [|? [|? [|? [|? ?]]]]; try discriminate. simpl in Ec. inversion Ec; reflexivity.
Qed.
Lemma jtypes_map l : forall js, jtypes_of l = Some js -> map jcode js = l.
Proof.
  induction l as [|z l IH]; simpl; intros js E. inversion E; auto.
  destruct (jtype_of z) as [j|] eqn:Ez; [|discriminate]. destruct (jtypes_of l) as [w|]; [|discriminate].
  inversion E; subst. simpl. rewrite (IH w eq_refl). f_equal.
  assert (Hz : (0 <= z <= 3)%Z) by (apply jtype_of_code; rewrite Ez; auto).
  assert (z = 0 \/ z = 1 \/ z = 2 \/ z = 3)%Z as [-> | [-> | [-> | ->]]] by lia; simpl in Ez; inversion Ez; reflexivity.
Qed.
Lemma bind_ok {A B} (x : out A) (f : A -> out B) b : bind x f = Ok b -> exists a, x = Ok a /\ f a = Ok b.
Proof. destruct x; simpl; try discriminate. eauto. Qed.

Lemma Robot_init_stored a r : Robot_init a = Ok r ->
  map (fun v => [vx v; vy v; vz v]) (rH r) = columns (aH a) /\
  map (fun v => [vx v; vy v; vz v]) (rP r) = columns (aP a) /\
  map jcode (rtype r) = atype a /\
  (rlower r, rupper r) = match alower a, aupper a with Some l, Some u => (Some l, Some u) | _, _ => (None, None) end /\
  (rRtool r, rptool r) = match aRtool a, aptool a with Some A, Some p => (Some A, Some p) | _, _ => (None, None) end /\
  rvel r = avel a /\ racc r = aacc a /\ rM r = aM a /\ rnames r = anames a /\ rroot r = aroot a /\ rtip r = atip a /\
  rflange r = aflange a /\ rbase r = abase a.
Proof.
  unfold Robot_init. intros E.
  do 4 (apply bind_ok in E; destruct E as (? & _ & E)).
  apply bind_ok in E; destruct E as (lims & EL & E).
  do 4 (apply bind_ok in E; destruct E as (? & _ & E)).
  destruct (cols3 (columns (aH a))) as [H|] eqn:EH; [|discriminate].
  destruct (cols3 (columns (aP a))) as [P|] eqn:EP; [|discriminate].
  destruct (jtypes_of (atype a)) as [ty|] eqn:ET; [|discriminate].
  inversion E; subst; clear E; simpl.
  split. apply cols3_map; auto. split. apply cols3_map; auto. split. apply jtypes_map; auto.
  split.
  { destruct (alower a), (aupper a); try (inversion EL; reflexivity).
    do 2 (apply bind_ok in EL; destruct EL as (? & _ & EL)). inversion EL; reflexivity. }
  split. { destruct (aRtool a), (aptool a); reflexivity. }
  repeat split.
Qed.
(** A robot built from exactly unit axes is well formed. *)
Lemma Robot_init_wf a r : rectangular (aH a) -> rectangular (aP a) -> Robot_init a = Ok r ->
  Forall unit3 (rH r) -> wf_robot r /\ (rRtool r = None <-> rptool r = None).
Proof.
  intros RH RP E U. destruct (Robot_init_cases a RH RP) as [[V _]|[_ K]]; [|congruence].
  destruct (Robot_init_stored a r E) as (H1&H2&H3&H4&H5&_).
  assert (L : List.length (rtype r) = List.length (atype a)) by (rewrite <- H3, map_length; auto).
  split; [constructor|].
  - rewrite L, <- (va_H a V), <- H1, map_length. auto.
  - rewrite L, <- (va_P a V), <- H2, map_length. auto.
  - auto.
  - intros l El. pose proof (va_lims a V) as W. destruct (alower a), (aupper a); inversion H4; try congruence.
    rewrite L. rewrite El in H0. inversion H0; subst. destruct (W l0 l1); auto.
  - intros l El. pose proof (va_lims a V) as W. destruct (alower a), (aupper a); inversion H4; try congruence.
    rewrite L. rewrite El in H6. inversion H6; subst. destruct (W l0 l1); auto.
  - destruct (aRtool a), (aptool a); inversion H5; split; congruence.
Qed.
