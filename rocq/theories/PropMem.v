(** Properties C92 and C93: which arrays the poses and robots share, and what the in-place step of
    robot6_sphericalwrist_invkin does to other objects. *)
From Coq Require Import Reals List String Arith Lia Lra Bool.
From Verif Require Import LinAlg RealAux Py FactsReal FactsLinAlg ModelRot SpecRot FactsRot ModelTransform ModelRobot ModelKin SpecKin FactsKin ModelInvkin SpecInvkin FactsIkGeo FactsRobot6 FactsIkMut
  ModelMem SpecMem FactsMem.
Import ListNotations.
Open Scope R_scope.

(* ---- C92 ---- *)
Theorem C92_mul : forall m a b, live m (addr_T a) -> live m (addr_T b) -> let '(m', T) := m_mul m a b in independent m m' T (tmul (readT m a) (readT m b)).
Proof. intros m a b LA LB. pose proof (m_mul_ok m a b LA LB) as X. destruct (m_mul m a b). apply made_independent, X. Qed.
Theorem C92_inv : forall m a, live m (addr_T a) -> let '(m', T) := m_inv m a in independent m m' T (tinv (readT m a)).
Proof. intros m a LA. pose proof (m_inv_ok m a LA) as X. destruct (m_inv m a). apply made_independent, X. Qed.
Theorem C92_identity : forall m, let '(m', T) := m_identity m in independent m m' T identity_transform.
Proof. intros m. pose proof (m_identity_ok m) as X. destruct (m_identity m). apply made_independent, X. Qed.
(** fwdkin: the value of the exact model, in arrays of its own; a failing call leaves no trace. *)
Theorem C92_fwdkin : forall m r theta ignore, live m (addr_r r) ->
  match m_fwdkin m r theta ignore with
  | (m', Ok T) => exists v, fwdkin (read_robot m r) theta ignore = Ok v /\ independent m m' T v
  | (m', Err e) => m' = m /\ fwdkin (read_robot m r) theta ignore = Err e
  end.
Proof.
  intros m r theta ig L. pose proof (m_fwdkin_ok m r theta ig L) as X. destruct (m_fwdkin m r theta ig) as [m' [T|e]]; [|exact X].
  destruct X as (v & E & M). exists v. split; [exact E | apply made_independent, M].
Qed.
(** The constructor copies R and keeps p: a later change of R does not reach the pose, a change of p always does. *)
Theorem C92_constructor : forall m A p pa ch, live m (addr_m A) -> live m (addr_v p) -> let '(m', T) := m_Transform m A p pa ch in
  readT m' T = Tf (readm m A) (readv m p) pa ch /\ kept m m' /\
  (forall ws, only ws (addr_m A) -> apart (addr_m A) (addr_v p) -> readT (writes m' ws) T = readT m' T) /\
  (forall x, NoDup (addr_v p) -> readT (writev m' p x) T = Tf (readm m A) x pa ch) /\
  (forall x, NoDup (addr_v (op T)) -> readv (writev m' (op T) x) p = x).
Proof.
  intros m A p pa ch LA LP. pose proof (m_Transform_ok m A p pa ch LA LP) as X. unfold m_Transform in *. destruct (new_m m (readm m A)) as [m' A']. destruct X as (K & E & F & L & _). cbn [oR op] in *.
  unfold fresh in F. rewrite Forall_forall in F. split; [exact E|]. split; [exact K|]. split; [|split].
  - intros ws O AP. unfold only in O. rewrite Forall_forall in O. apply same_T. intros a I. apply cell_writes. intros w Iw <-. specialize (O w Iw).
    apply in_app_or in I. destruct I as [I | I]; [|exact (AP _ O I)]. specialize (F _ I). pose proof (live_in _ _ _ LA O). lia.
  - intros x N. unfold readT in *. cbn [oR op o_parent o_child] in *. rewrite (read_writev m' p x N). f_equal.
    apply (f_equal tR) in E. cbn [tR] in E. rewrite <- E. apply same_m. intros a I. apply cell_writev. intros I'. specialize (F _ I). pose proof (live_in _ _ _ LP I'). lia.
  - intros x N. apply read_writev, N.
Qed.
(** The auxiliary transforms: a robot with flange, tool or base gets a new pose, any other the argument itself. *)
Definition bare (r : robj) : Prop := oflange r = None /\ obase r = None /\ (oRtool r = None \/ optool r = None).
Lemma next_mul m a b : next (fst (m_mul m a b)) = (next m + 21)%nat. Proof. cbn. lia. Qed.
Lemma next_inv m a : next (fst (m_inv m a)) = (next m + 12)%nat. Proof. cbn. lia. Qed.
Lemma next_Transform m A p x y : next (fst (m_Transform m A p x y)) = (next m + 9)%nat. Proof. cbn. lia. Qed.
Lemma step_next {A} (x : mem * A) k m (f : mem -> A -> mem * tobj) : next (fst x) = (next m + k)%nat -> (forall m' a, (next m' < next (fst (f m' a)))%nat) ->
  (next m < next (fst (let (m', a) := x in f m' a)))%nat.
Proof. destruct x as [m' a]. cbn [fst]. intros E F. specialize (F m' a). lia. Qed.
Lemma apply_bare m r T T' : m_apply_aux m r T = (m, T') -> bare r.
Proof.
  intros E. apply (f_equal (fun x => next (fst x))) in E. cbn [fst] in E. unfold m_apply_aux in E.
  set (s1 := match oflange r with Some F => m_mul m T F | None => (m, T) end) in E.
  assert (N1 : oflange r = None \/ (next m < next (fst s1))%nat) by (unfold s1; destruct (oflange r); [right; rewrite next_mul; lia | left; reflexivity]).
  assert (G1 : (next m <= next (fst s1))%nat) by (unfold s1; destruct (oflange r); [rewrite next_mul; lia | cbn; lia]).
  destruct s1 as [m1 T1]. cbn [fst] in *.
  set (s2 := match oRtool r, optool r with Some A, Some p => let (m', W) := m_Transform m1 A p None None in m_mul m' T1 W | _, _ => (m1, T1) end) in E.
  assert (N2 : (oRtool r = None \/ optool r = None) \/ (next m1 < next (fst s2))%nat).
  { unfold s2. destruct (oRtool r); [|auto]. destruct (optool r); [|auto]. right. eapply step_next; [apply next_Transform|]. intros. rewrite next_mul. lia. }
  assert (G2 : (next m1 <= next (fst s2))%nat).
  { unfold s2. destruct (oRtool r); [|cbn; lia]. destruct (optool r); [|cbn; lia]. apply Nat.lt_le_incl. eapply step_next; [apply next_Transform|]. intros. rewrite next_mul. lia. }
  destruct s2 as [m2 T2]. cbn [fst] in *. destruct (obase r) eqn:EB; [rewrite next_mul in E; lia|]. cbn [fst] in E.
  destruct N1 as [N1|]; [|lia]. destruct N2 as [N2|]; [|lia]. repeat split; auto.
Qed.
Lemma unapply_bare m r T T' : m_unapply_aux m r T = (m, T') -> bare r.
Proof.
  intros E. apply (f_equal (fun x => next (fst x))) in E. cbn [fst] in E. unfold m_unapply_aux in E.
  set (s2 := match oRtool r, optool r with Some A, Some p => let (m', W) := m_Transform m A p None None in let (m'', W') := m_inv m' W in m_mul m'' T W' | _, _ => (m, T) end) in E.
  assert (N2 : (oRtool r = None \/ optool r = None) \/ (next m < next (fst s2))%nat).
  { unfold s2. destruct (oRtool r); [|auto]. destruct (optool r); [|auto]. right. eapply step_next; [apply next_Transform|]. intros. eapply step_next; [apply next_inv|]. intros. rewrite next_mul. lia. }
  assert (G2 : (next m <= next (fst s2))%nat).
  { unfold s2. destruct (oRtool r); [|cbn; lia]. destruct (optool r); [|cbn; lia]. apply Nat.lt_le_incl. eapply step_next; [apply next_Transform|]. intros. eapply step_next; [apply next_inv|]. intros. rewrite next_mul. lia. }
  destruct s2 as [m1 T1]. cbn [fst] in *.
  set (s1 := match oflange r with Some F => let (m', F') := m_inv m1 F in m_mul m' T1 F' | None => (m1, T1) end) in E.
  assert (N1 : oflange r = None \/ (next m1 < next (fst s1))%nat) by (unfold s1; destruct (oflange r); [right; eapply step_next; [apply next_inv|]; intros; rewrite next_mul; lia | left; reflexivity]).
  assert (G1 : (next m1 <= next (fst s1))%nat) by (unfold s1; destruct (oflange r); [apply Nat.lt_le_incl; eapply step_next; [apply next_inv|]; intros; rewrite next_mul; lia | cbn; lia]).
  destruct s1 as [m2 T2]. cbn [fst] in *. destruct (obase r) eqn:EB.
  - exfalso. assert ((next m2 < next m)%nat); [|lia]. rewrite <- E. eapply step_next; [apply next_inv|]. intros. rewrite next_mul. lia.
  - cbn [fst] in E. destruct N1 as [N1|]; [|lia]. destruct N2 as [N2|]; [|lia]. repeat split; auto.
Qed.
Theorem C92_aux : forall m r T, live m (addr_r r) -> live m (addr_T T) ->
  (bare r -> m_apply_aux m r T = (m, T) /\ m_unapply_aux m r T = (m, T)) /\
  (~ bare r -> (let '(m', T') := m_apply_aux m r T in independent m m' T' (apply_aux (read_robot m r) (readT m T))) /\
               (let '(m', T') := m_unapply_aux m r T in independent m m' T' (unapply_aux (read_robot m r) (readT m T)))).
Proof.
  intros m r T LR LT. split.
  - intros (F & B & W). unfold m_apply_aux, m_unapply_aux. rewrite F, B. destruct W as [-> | ->]; [auto|]. destruct (oRtool r); auto.
  - intros NB. split.
    + pose proof (m_apply_ok m r T LR LT) as X. destruct (m_apply_aux m r T) as [m' T'] eqn:E. destruct X as [(-> & -> & X) | X]; [|apply made_independent, X].
      exfalso. apply NB. exact (apply_bare m r T T E).
    + pose proof (m_unapply_ok m r T LR LT) as X. destruct (m_unapply_aux m r T) as [m' T'] eqn:E. destruct X as [(-> & -> & X) | X]; [|apply made_independent, X].
      exfalso. apply NB. exact (unapply_bare m r T T E).
Qed.

(** Two poses built on one vector, and a robot with a base. *)
Definition mem0 : mem := Mem (fun i => nth i [1; 0; 0; 0; 1; 0; 0; 0; 1; 5; 6; 7] 0) 12.
Definition A0 : mref := MR (VR 0 1 2) (VR 3 4 5) (VR 6 7 8).
Definition p0 : vref := VR 9 10 11.
Example C92_ex : live mem0 (addr_m A0) /\ live mem0 (addr_v p0) /\ NoDup (addr_v p0) /\ apart (addr_m A0) (addr_v p0) /\
  let (m1, T1) := m_Transform mem0 A0 p0 None None in let (m2, T2) := m_mul m1 T1 T1 in
  readT m1 T1 = Tf I3 (V3 5 6 7) None None /\ tp (readT m2 T2) = V3 10 12 14 /\
  let m3 := writev m2 p0 vzero in tp (readT m3 T1) = vzero /\ tp (readT m3 T2) = V3 10 12 14.
Proof.
  split; [repeat (apply Forall_cons; [cbn; lia|]); apply Forall_nil|]. split; [repeat (apply Forall_cons; [cbn; lia|]); apply Forall_nil|].
  split; [repeat constructor; cbn; intuition discriminate|]. split; [intros a; cbn; intuition lia|].
  assert (LA : live mem0 (addr_m A0)) by (repeat (apply Forall_cons; [cbn; lia|]); apply Forall_nil). assert (LP : live mem0 (addr_v p0)) by (repeat (apply Forall_cons; [cbn; lia|]); apply Forall_nil).
  pose proof (m_Transform_ok mem0 A0 p0 None None LA LP) as X. destruct (m_Transform mem0 A0 p0 None None) as [m1 T1]. destruct X as (K & E & F & L & OP).
  assert (L1 : live m1 (addr_T T1)) by (unfold addr_T; rewrite OP; apply live_app; split; [exact L | exact (kept_live _ _ _ K LP)]).
  pose proof (C92_mul m1 T1 T1 L1 L1) as X. destruct (m_mul m1 T1 T1) as [m2 T2]. destruct X as (E2 & K2 & _ & I2 & _). rewrite E in E2, I2.
  assert (P0 : readv mem0 p0 = V3 5 6 7) by reflexivity. assert (R0 : readm mem0 A0 = I3) by reflexivity. rewrite P0, R0 in *.
  assert (V : tp (tmul (Tf I3 (V3 5 6 7) None None) (Tf I3 (V3 5 6 7) None None)) = V3 10 12 14) by (cbn [tmul tp tR]; rewrite mvec_I; unfold vadd; cbn; f_equal; ring).
  split; [exact E|]. split; [rewrite E2; exact V|]. split.
  - unfold readT. cbn [tp]. rewrite OP. apply read_writev. repeat constructor; cbn; intuition discriminate.
  - change (writev m2 p0 vzero) with (writes m2 [(9%nat, 0); (10%nat, 0); (11%nat, 0)]). rewrite I2; [exact V|]. pose proof (proj1 K) as N. cbn in N. repeat (apply Forall_cons; [cbn; lia|]). apply Forall_nil.
Qed.
Print Assumptions C92_mul.
Print Assumptions C92_inv.
Print Assumptions C92_identity.
Print Assumptions C92_fwdkin.
Print Assumptions C92_constructor.
Print Assumptions C92_aux.

(* ---- C93 ---- *)
(** When P overlaps neither H nor the pose, the call computes what the model on values computes, leaves P as that model says, and
    touches nothing else (also when it raises). *)
Theorem C93_call : forall argsort m r pose last, live m (addr_r r) -> live m (addr_T pose) -> NoDup (flat_map addr_v (oP r)) ->
  apart (flat_map addr_v (oP r)) (flat_map addr_v (oH r)) -> apart (flat_map addr_v (oP r)) (addr_T pose) ->
  let '(m', o) := m_robot6 argsort m r pose last in
  let '(v, o') := robot6_sphericalwrist_invkin argsort (read_robot m r) (readT m pose) last in
  o = o' /\ map (readv m') (oP r) = rP v /\ (next m <= next m')%nat /\
  forall a, (a < next m)%nat -> ~ In a (flat_map addr_v (oP r)) -> cell m' a = cell m a.
Proof.
  intros argsort m r pose last LR LT N AH AT. pose proof (m_robot6_ok argsort m r pose last LR LT N AH AT) as X. destruct (m_robot6 argsort m r pose last).
  destruct (robot6_sphericalwrist_invkin argsort (read_robot m r) (readT m pose) last). exact X.
Qed.
(** Robots that do not use the array P keep all their data. *)
Theorem C93_others : forall argsort m r pose last r2, live m (addr_r r) -> live m (addr_T pose) -> NoDup (flat_map addr_v (oP r)) ->
  apart (flat_map addr_v (oP r)) (flat_map addr_v (oH r)) -> apart (flat_map addr_v (oP r)) (addr_T pose) ->
  live m (addr_r r2) -> apart (flat_map addr_v (oP r)) (addr_r r2) ->
  read_robot (fst (m_robot6 argsort m r pose last)) r2 = read_robot m r2.
Proof.
  intros argsort m r pose last r2 LR LT N AH AT L2 A2. pose proof (m_robot6_ok argsort m r pose last LR LT N AH AT) as X. destruct (m_robot6 argsort m r pose last) as [m' o].
  destruct X as (_ & _ & _ & X). cbn [fst]. apply same_r. intros a I. apply X; [exact (live_in _ _ _ L2 I)|]. intros I'. exact (A2 a I' I).
Qed.
(** Robots built on the same arrays H and P (with other tools, limits, bases) keep their kinematics. *)
Definition aux_addr (r : robj) : list nat :=
  addr_opt addr_m (oRtool r) ++ addr_opt addr_v (optool r) ++ addr_opt addr_T (oflange r) ++ addr_opt addr_T (obase r).
Theorem C93_shared : forall argsort m r pose last r2, live m (addr_r r) -> live m (addr_T pose) -> NoDup (flat_map addr_v (oP r)) ->
  apart (flat_map addr_v (oP r)) (flat_map addr_v (oH r)) -> apart (flat_map addr_v (oP r)) (addr_T pose) ->
  live m (addr_r r2) -> oH r2 = oH r -> oP r2 = oP r -> apart (flat_map addr_v (oP r)) (aux_addr r2) -> wf_robot (read_robot m r2) ->
  forall theta b, fwdkin (read_robot (fst (m_robot6 argsort m r pose last)) r2) theta b = fwdkin (read_robot m r2) theta b /\
                  robotjacobian (read_robot (fst (m_robot6 argsort m r pose last)) r2) theta b = robotjacobian (read_robot m r2) theta b.
Proof.
  intros argsort m r pose last r2 LR LT N AH AT L2 E1 E2 A2 W theta b. pose proof (m_robot6_ok argsort m r pose last LR LT N AH AT) as X. destruct (m_robot6 argsort m r pose last) as [m' o].
  destruct X as (_ & EP & _ & X). cbn [fst]. destruct (live_r _ _ L2) as (LH & _ & L3). unfold aux_addr in A2.
  assert (LX : live m (aux_addr r2)) by (unfold aux_addr; rewrite !live_app; exact L3).
  assert (C : forall a, In a (aux_addr r2) -> cell m' a = cell m a) by (intros a I; apply X; [exact (live_in _ _ _ LX I) | intros I'; exact (A2 a I' I)]).
  unfold aux_addr in C.
  assert (EP' : map (readv m') (oP r2) = fst (correct_P (rH (read_robot m r2)) (rP (read_robot m r2)))).
  { rewrite E2, EP. unfold robot6_sphericalwrist_invkin. cbn [read_robot rH rP]. rewrite E1, E2. destruct (correct_P _ _). reflexivity. }
  assert (EQ : read_robot m' r2 = set_P (read_robot m r2) (fst (correct_P (rH (read_robot m r2)) (rP (read_robot m r2))))).
  { rewrite <- EP'. unfold read_robot, set_P. cbn. f_equal.
    - apply same_vs. intros a I. apply X; [exact (live_in _ _ _ LH I)|]. rewrite E1 in I. intros I'. exact (AH a I' I).
    - destruct (oRtool r2); cbn [addr_opt option_map] in *; auto. f_equal. apply same_m. intros; apply C. apply in_or_app. left. auto.
    - destruct (optool r2); cbn [addr_opt option_map] in *; auto. f_equal. apply same_v. intros; apply C. apply in_or_app; right. apply in_or_app. left. auto.
    - destruct (oflange r2); cbn [addr_opt option_map] in *; auto. f_equal. apply same_T. intros; apply C. do 2 (apply in_or_app; right). apply in_or_app. left. auto.
    - destruct (obase r2); cbn [addr_opt option_map] in *; auto. f_equal. apply same_T. intros; apply C. do 3 (apply in_or_app; right). auto. }
  rewrite EQ. destruct (correct_kin (read_robot m r2) W) as [[K1 K2] _]. split; [apply K1 | apply K2].
Qed.
(** Two robots that share only P: the call on the first moves the second. *)
Definition vrefs (a n : nat) : list vref := map (fun i => VR (a + 3 * i) (a + 3 * i + 1) (a + 3 * i + 2)) (seq 0 n).
Definition mem1 : mem := Mem (fun i => nth i
  ([0; 0; 0] ++ [0; 0; 0] ++ [0; 0; 0] ++ [1; 0; 0] ++ [1; 0; 0] ++ [0; 0; 0] ++ [0; 0; 0]
   ++ [0; 0; 1] ++ [0; 1; 0] ++ [0; 1; 0] ++ [1; 0; 0] ++ [0; 1; 0] ++ [1; 0; 0]
   ++ [0; 0; 1] ++ [0; 1; 0] ++ [0; 1; 0] ++ [0; 0; 1] ++ [0; 1; 0] ++ [0; 0; 1]
   ++ [1; 0; 0] ++ [0; 1; 0] ++ [0; 0; 1] ++ [0; 0; 0]) 0) 69.
Definition rest6 : robot := Rb [] [] [Rotary; Rotary; Rotary; Rotary; Rotary; Rotary] None None None None None None None None None None None None.
Definition rob1 : robj := RO (vrefs 21 6) (vrefs 0 7) None None None None rest6.
Definition rob2 : robj := RO (vrefs 39 6) (vrefs 0 7) None None None None rest6.
Definition pose1 : tobj := TO (MR (VR 57 58 59) (VR 60 61 62) (VR 63 64 65)) (VR 66 67 68) None None.
Ltac all_lt := unfold live; apply Forall_forall; cbn; intros a I; repeat (destruct I as [<- | I]; [lia|]); contradiction.
Lemma rob1_live : live mem1 (addr_r rob1). Proof. all_lt. Qed.
Lemma rob2_live : live mem1 (addr_r rob2). Proof. all_lt. Qed.
Lemma pose1_live : live mem1 (addr_T pose1). Proof. all_lt. Qed.
Lemma rob1_P : NoDup (flat_map addr_v (oP rob1)). Proof. change (NoDup (seq 0 21)). apply seq_NoDup. Qed.
Lemma rob1_apart n k : (21 <= n)%nat -> apart (flat_map addr_v (oP rob1)) (seq n k).
Proof. intros L a I I'. change (flat_map addr_v (oP rob1)) with (seq 0 21) in I. apply in_seq in I. apply in_seq in I'. lia. Qed.
Lemma rob_wf m H P : List.length H = 6%nat -> List.length P = 7%nat -> Forall unit3 (map (readv m) H) -> wf_robot (read_robot m (RO H P None None None None rest6)).
Proof. intros L1 L2 F. split; cbn; rewrite ?map_length; try lia; try discriminate. exact F. Qed.
Lemma rob1_AH : apart (flat_map addr_v (oP rob1)) (flat_map addr_v (oH rob1)). Proof. apply (rob1_apart 21 18); lia. Qed.
Lemma rob1_AT : apart (flat_map addr_v (oP rob1)) (addr_T pose1). Proof. apply (rob1_apart 57 12); lia. Qed.
Lemma axes_unit l : (forall v, In v l -> In v [ex; ey; ez]) -> Forall unit3 l.
Proof. intros S. apply Forall_forall. intros v I. destruct (S v I) as [<- | [<- | [<- | []]]]; unfold unit3, dot; cbn; ring. Qed.
Lemma rob1_wf : wf_robot (read_robot mem1 rob1).
Proof. apply rob_wf; try reflexivity. change (Forall unit3 [ez; ey; ey; ex; ey; ex]). apply axes_unit. cbn. tauto. Qed.
Lemma rob1_after argsort : map (readv (fst (m_robot6 argsort mem1 rob1 pose1 None))) (oP rob1) = [vzero; vzero; vzero; V3 2 0 0; vzero; vzero; vzero].
Proof.
  pose proof (m_robot6_ok argsort mem1 rob1 pose1 None rob1_live pose1_live rob1_P rob1_AH rob1_AT) as X. destruct (m_robot6 argsort mem1 rob1 pose1 None) as [m' o]. destruct X as (_ & EP & _). cbn [fst].
  rewrite EP. unfold robot6_sphericalwrist_invkin. change (rH (read_robot mem1 rob1)) with [ez; ey; ey; ex; ey; ex]. change (rP (read_robot mem1 rob1)) with [vzero; vzero; vzero; ex; ex; vzero; vzero].
  unfold correct_P, correct4, index. cbn [nth_error].
  assert (Z3 : vzerob ex = false) by (unfold vzerob, ex; cbn; rewrite (proj2 (Reqb_false 1 0)) by lra; reflexivity).
  assert (Z4 : vzerob (vsub ex (vscale (dot ex ex) ex)) = true) by (apply vzerob_iff; unfold vsub, vscale, dot, ex, vzero; cbn; f_equal; lra).
  rewrite Z3, Z4. unfold correct5, index. cbn [set_nth firstn skipn app nth nth_error]. rewrite vzerob_vzero. cbn [fst rP set_P]. unfold vadd, ex. cbn. do 4 f_equal. f_equal; ring.
Qed.
(** A second robot on the same arrays, with limits: P really changes, its kinematics does not. *)
Definition rob3 : robj := RO (vrefs 21 6) (vrefs 0 7) None None None None
  (Rb [] [] [Rotary; Rotary; Rotary; Rotary; Rotary; Rotary] (Some [-1; -1; -1; -1; -1; -1]) (Some [1; 1; 1; 1; 1; 1]) None None None None None None None None None None).
Example C93_ex : forall argsort theta b, let m' := fst (m_robot6 argsort mem1 rob1 pose1 None) in
  map (readv m') (oP rob3) <> map (readv mem1) (oP rob3) /\ fwdkin (read_robot m' rob3) theta b = fwdkin (read_robot mem1 rob3) theta b.
Proof.
  intros argsort theta b m'. split.
  - change (oP rob3) with (oP rob1). unfold m'. rewrite rob1_after. change (map (readv mem1) (oP rob1)) with [vzero; vzero; vzero; ex; ex; vzero; vzero]. intros F. injection F as F1 F2. lra.
  - apply (C93_shared argsort mem1 rob1 pose1 None rob3 rob1_live pose1_live rob1_P rob1_AH rob1_AT); try reflexivity.
    + all_lt.
    + intros a I I'. exact I'.
    + pose proof rob1_wf as W. destruct W as [W1 W2 W3 W4 W5]. split; auto; cbn; intros l E; injection E as <-; reflexivity.
Qed.
Theorem C93_other_axes : exists argsort m r pose last r2 theta, live m (addr_r r) /\ live m (addr_T pose) /\ NoDup (flat_map addr_v (oP r)) /\
  apart (flat_map addr_v (oP r)) (flat_map addr_v (oH r)) /\ apart (flat_map addr_v (oP r)) (addr_T pose) /\
  wf_robot (read_robot m r) /\ wf_robot (read_robot m r2) /\ live m (addr_r r2) /\ oP r2 = oP r /\
  fwdkin (read_robot (fst (m_robot6 argsort m r pose last)) r2) theta false <> fwdkin (read_robot m r2) theta false.
Proof.
  exists (fun l => seq 0 (List.length l)), mem1, rob1, pose1, None, rob2, [0; 0; 0; PI; 0; 0].
  assert (W2 : wf_robot (read_robot mem1 rob2)) by (apply rob_wf; try reflexivity; change (Forall unit3 [ez; ey; ey; ez; ey; ez]); apply axes_unit; cbn; tauto).
  split; [exact rob1_live|]. split; [exact pose1_live|]. split; [exact rob1_P|]. split; [exact rob1_AH|]. split; [exact rob1_AT|]. split; [exact rob1_wf|]. split; [exact W2|]. split; [exact rob2_live|]. split; [reflexivity|].
  pose proof (rob1_after (fun l => seq 0 (List.length l))) as EC.
  pose proof (m_robot6_ok (fun l => seq 0 (List.length l)) mem1 rob1 pose1 None rob1_live pose1_live rob1_P rob1_AH rob1_AT) as X. destruct (m_robot6 _ mem1 rob1 pose1 None) as [m' o]. destruct X as (_ & _ & _ & X). cbn [fst] in *.
  assert (EH : map (readv m') (oH rob2) = [ez; ey; ey; ez; ey; ez]).
  { change [ez; ey; ey; ez; ey; ez] with (map (readv mem1) (oH rob2)). apply same_vs. change (flat_map addr_v (oH rob2)) with (seq 39 18). intros a I. apply X; [apply in_seq in I; cbn; lia|].
    intros I'. change (flat_map addr_v (oP rob1)) with (seq 0 21) in I'. apply in_seq in I. apply in_seq in I'. lia. }
  assert (ER : read_robot m' rob2 = Rb [ez; ey; ey; ez; ey; ez] [vzero; vzero; vzero; V3 2 0 0; vzero; vzero; vzero] (rtype rest6) None None None None None None None None None None None None).
  { unfold read_robot. rewrite EH. change (oP rob2) with (oP rob1). rewrite EC. reflexivity. }
  assert (ER0 : read_robot mem1 rob2 = Rb [ez; ey; ey; ez; ey; ez] [vzero; vzero; vzero; ex; ex; vzero; vzero] (rtype rest6) None None None None None None None None None None None None) by reflexivity.
  rewrite ER, ER0. intros F.
  change (fwdkin ?a ?b false) with (fwdkin a b true) in F. rewrite ER0 in W2.
  rewrite !fwdkin_ignore in F; [| exact W2 | cbn; lia | destruct W2 as [a b c d e]; split; cbn in *; auto | cbn; lia].
  apply (f_equal (fun x => match x with Ok T => vx (tp T) | Err _ => 0 end)) in F. unfold apply_aux, bare_pose, tool_transform in F. cbn [rflange rRtool rptool rbase tp rP hd tl rtype rest6 rH chain joint_motion] in F.
  assert (R0 : forall k v, rotate k 0 v = v) by (intros k v; unfold rotate; rewrite cos_0, sin_0; la_ring).
  assert (RP : forall v, rotate ez PI v = V3 (- vx v) (- vy v) (vz v)) by (intros v; unfold rotate; rewrite cos_PI, sin_PI; destruct v as [a b c]; unfold vadd, vscale, cross, dot, ez; cbn; f_equal; ring).
  repeat (rewrite ?R0, ?RP in F; cbn [vx vy vz vadd vzero ex] in F). lra.
Qed.
Print Assumptions C93_call.
Print Assumptions C93_others.
Print Assumptions C93_shared.
Print Assumptions C93_other_axes.
