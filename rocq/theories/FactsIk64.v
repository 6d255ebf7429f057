(** What a solution returned by robot6_sphericalwrist_invkin comes from, and error bounds for the matrices and vectors
    on the way, in binary64. *)
From Coq Require Import Reals ZArith List Bool Lra Lia Psatz.
From Flocq Require Import Core.Core IEEE754.BinarySingleNaN.
From Verif Require Import LinAlg RealAux Py FactsReal FactsLinAlg ModelRot SpecRot FactsRot FactsNorm SpecSub ModelInvkin ModelFloat ModelFloat2 ModelFloat3 ModelFloat6 ModelFloat9 ModelFloat10 ModelFloat11.
From Verif Require PropNorm.
Import ListNotations.
Open Scope R_scope.

Lemma bind_inv {T U} (a : out T) (f : T -> out U) r : bind a f = Ok r -> exists x, a = Ok x /\ f x = Ok r.
Proof. destruct a as [x|e]; cbn [bind]; [intros H; exists x; auto|discriminate]. Qed.
Lemma flat_map_in {T U} (f : T -> out (list U)) l : forall r y, flat_map_out f l = Ok r -> In y r -> exists x s, In x l /\ f x = Ok s /\ In y s.
Proof.
  induction l as [|x l IH]; intros r y E I; cbn [flat_map_out] in E; [injection E as <-; destruct I|].
  apply bind_inv in E. destruct E as (s & E1 & E). apply bind_inv in E. destruct E as (s' & E2 & E). injection E as <-. apply in_app_or in I. destruct I as [I | I].
  - exists x, s. split; [left; reflexivity|]. auto.
  - destruct (IH _ _ E2 I) as (x' & s2 & H1 & H2 & H3). exists x', s2. split; [right; exact H1|]. auto.
Qed.
Lemma nth_list {T} (l : list T) i x : index l i = Ok x -> nth_error l i = Some x.
Proof. unfold index. destruct (nth_error l i); [intros [= ->]; reflexivity|discriminate]. Qed.

Section Trace.
Context (A : arith).
Notation num := (num A).
Context (nasin : num -> num) (nrem : num -> num -> num) (argsort : list num -> list nat).

Lemma call1_in z j theta res x : g_call1 A nrem argsort z j theta = Ok res -> In x res -> exists t, In t theta /\ g_normalize A nrem z j t = Ok (Some x).
Proof.
  intros E I. unfold g_call1 in E. apply bind_inv in E. destruct E as (normed & EN & E). apply (PropNorm.filter_out_in _ _ _ _ EN).
  destruct (gnlast z) as [last|]; [|injection E as <-; exact I].
  destruct (Nat.ltb (length normed) 2); [injection E as <-; exact I|].
  apply bind_inv in E. destruct E as (lj & _ & E).
  destruct (filter _ normed) as [|y [|y' ys]] eqn:EF; [exact (PropNorm.map_out_index_in _ _ _ _ E I)| |exact (PropNorm.map_out_index_in _ _ _ _ E I)].
  injection E as <-. destruct I as [<- | []]. assert (J : In y [y]) by (left; reflexivity). rewrite <- EF in J. apply filter_In in J. apply J.
Qed.
Lemma call2_in z j theta res x : g_call2 A nrem argsort z j theta = Ok res -> In x res -> exists t, In t theta /\ g_normalize_pair A nrem z j t = Ok (Some x).
Proof.
  intros E I. unfold g_call2 in E. apply bind_inv in E. destruct E as (normed & EN & E). apply (PropNorm.filter_out_in _ _ _ _ EN).
  destruct (gnlast z) as [last|]; [|injection E as <-; exact I].
  destruct (Nat.ltb (length normed) 2); [injection E as <-; exact I|].
  apply bind_inv in E. destruct E as (la & _ & E). apply bind_inv in E. destruct E as (lb & _ & E).
  destruct (filter _ normed) as [|y [|y' ys]] eqn:EF; [exact (PropNorm.map_out_index_in _ _ _ _ E I)| |exact (PropNorm.map_out_index_in _ _ _ _ E I)].
  injection E as <-. destruct I as [<- | []]. assert (J : In y [y]) by (left; reflexivity). rewrite <- EF in J. apply filter_In in J. apply J.
Qed.
Lemma pair_in z j t x y : g_normalize_pair A nrem z j t = Ok (Some (x, y)) -> g_normalize A nrem z (fst j) (fst t) = Ok (Some x) /\ g_normalize A nrem z (snd j) (snd t) = Ok (Some y).
Proof.
  unfold g_normalize_pair. intros E. apply bind_inv in E. destruct E as (a & Ea & E). apply bind_inv in E. destruct E as (b & Eb & E).
  destruct a as [a|]; [|discriminate]. destruct b as [b|]; [|discriminate]. injection E as -> ->. auto.
Qed.
Lemma sort_in last sols res x : g_sort A argsort last sols = Ok res -> In x res -> In x sols.
Proof.
  unfold g_sort. destruct last as [lj|]; [|intros [= ->]; auto]. destruct sols as [|s sols]; [discriminate|].
  destruct (Nat.eqb _ _); [|discriminate]. intros E I. exact (PropNorm.map_out_index_in _ _ _ _ E I).
Qed.

(** the vectors and matrices the code computes on the way *)
Section Way.
Context (H0 H1 H2 H3 H4 H5 P0 P1 P2 P3 P6 : v3 num) (R06 : m3 num) (p0T : v3 num).
Definition w_v : v3 num := g_vsub A p0T (g_mv A R06 P6).
Definition w_d1 : num := g_dot3 A (g_ey A) (g_vadd A (g_vadd A P1 P2) P3).
Definition w_R01 (q1 : num) : m3 num := g_rot A H0 q1.
Definition w_p26 q1 : v3 num := g_vsub A (g_mv A (v3cols (w_R01 q1)) w_v) (g_vadd A P0 P1).
Definition w_p2 q3 : v3 num := g_vadd A P2 (g_mv A (g_rot A H2 q3) P3).
Definition w_R03 q1 q2 q3 : m3 num := g_mm A (g_mm A (w_R01 q1) (g_rot A H1 q2)) (g_rot A H2 q3).
Definition w_v4 q1 q2 q3 : v3 num := g_mv A (g_mm A (v3cols (w_R03 q1 q2 q3)) R06) H5.
Definition w_R05 q1 q2 q3 q4 q5 : m3 num := g_mm A (w_R03 q1 q2 q3) (g_mm A (g_rot A H3 q4) (g_rot A H4 q5)).
Definition w_v6 q1 q2 q3 q4 q5 : v3 num := g_mv A (g_mm A (v3cols (w_R05 q1 q2 q3 q4 q5)) R06) H4.
(** how a solution comes about *)
Definition trace (z : gnormalizer A) (x : list num) : Prop :=
  exists q1 q2 q3 q4 q5 q6 t1 t2 t3 t4 t5 t6 Q3 Q45, x = [q1; q2; q3; q4; q5; q6] /\
    (In t1 (g_subproblem4 A nasin (g_ey A) w_v (g_vneg A H0) w_d1) /\ g_normalize A nrem z 0 t1 = Ok (Some q1)) /\
    (g_subproblem3 A (l3 A P3) (l3 A P2) (l3 A H2) (l_norm A (l3 A (w_p26 q1))) = Ok Q3 /\ In t3 Q3 /\ g_normalize A nrem z 2 t3 = Ok (Some q3)) /\
    (g_subproblem1 A (l3 A (w_p2 q3)) (l3 A (w_p26 q1)) (l3 A H1) = Ok t2 /\ g_normalize A nrem z 1 t2 = Ok (Some q2)) /\
    (g_subproblem2 A (l3 A H5) (l3 A (w_v4 q1 q2 q3)) (l3 A H3) (l3 A H4) = Ok Q45 /\ In (t4, t5) Q45 /\
       g_normalize A nrem z 3 t4 = Ok (Some q4) /\ g_normalize A nrem z 4 t5 = Ok (Some q5)) /\
    (g_subproblem1 A (l3 A H4) (l3 A (w_v6 q1 q2 q3 q4 q5)) (l3 A H5) = Ok t6 /\ g_normalize A nrem z 5 t6 = Ok (Some q6)).
End Way.
Lemma wrist_in z H3 H4 H5 R03 R06 q1 q2 q3 sols x : g_robot6_wrist A nrem argsort z H3 H4 H5 R03 R06 q1 q2 q3 = Ok sols -> In x sols ->
  exists q4 q5 q6 t4 t5 t6 Q45, x = [q1; q2; q3; q4; q5; q6] /\
    (g_subproblem2 A (l3 A H5) (l3 A (g_mv A (g_mm A (v3cols R03) R06) H5)) (l3 A H3) (l3 A H4) = Ok Q45 /\ In (t4, t5) Q45 /\
       g_normalize A nrem z 3 t4 = Ok (Some q4) /\ g_normalize A nrem z 4 t5 = Ok (Some q5)) /\
    (g_subproblem1 A (l3 A H4) (l3 A (g_mv A (g_mm A (v3cols (g_mm A R03 (g_mm A (g_rot A H3 q4) (g_rot A H4 q5)))) R06) H4)) (l3 A H5) = Ok t6 /\ g_normalize A nrem z 5 t6 = Ok (Some q6)).
Proof.
  unfold g_robot6_wrist. cbv zeta. intros E I. apply bind_inv in E. destruct E as (Q45 & E2 & E). apply bind_inv in E. destruct E as (N45 & EN & E).
  destruct (flat_map_in _ _ _ _ E I) as ([q4 q5] & s & IN & E1 & IS). destruct (call2_in _ _ _ _ _ EN IN) as ([t4 t5] & IT & EP). apply pair_in in EP. cbn [fst snd] in EP.
  apply bind_inv in E1. destruct E1 as (t6 & E6 & E1). apply bind_inv in E1. destruct E1 as (o & EO & E1). destruct o as [q6|]; [|injection E1 as <-; destruct IS].
  injection E1 as <-. destruct IS as [<- | []]. exists q4, q5, q6, t4, t5, t6, Q45. tauto.
Qed.
Lemma solve_trace H0 H1 H2 H3 H4 H5 P0 P1 P2 P3 P4 P5 P6 r pose last sols x : grH r = [H0; H1; H2; H3; H4; H5] ->
  g_robot6_solve A nasin nrem argsort r [P0; P1; P2; P3; P4; P5; P6] pose last = Ok sols -> In x sols ->
  trace H0 H1 H2 H3 H4 H5 P0 P1 P2 P3 P6 (gR pose) (gp pose) (GN (match grlower r, grupper r with Some l, Some u => Some (l, u) | _, _ => None end) last) x.
Proof.
  intros EH E I. unfold g_robot6_solve in E. cbv zeta in E. rewrite EH in E. cbn [index nth_error bind] in E.
  match type of E with context [g_call1 A nrem argsort ?z0] => set (z := z0) in E end. fold z.
  apply bind_inv in E. destruct E as (N1 & EN & E). apply bind_inv in E. destruct E as (ss & ES & E). pose proof (sort_in _ _ _ _ E I) as I'.
  destruct (flat_map_in _ _ _ _ ES I') as (q1 & s & IN & E1 & IS). destruct (call1_in _ _ _ _ _ EN IN) as (t1 & IT1 & N1').
  unfold g_robot6_arm in E1. cbn [index nth_error bind] in E1. cbv zeta in E1.
  apply bind_inv in E1. destruct E1 as (Q3 & E3 & E1). apply bind_inv in E1. destruct E1 as (N3 & EN3 & E1).
  destruct (flat_map_in _ _ _ _ E1 IS) as (q3 & s' & IN3 & E2 & IS'). destruct (call1_in _ _ _ _ _ EN3 IN3) as (t3 & IT3 & N3').
  apply bind_inv in E2. destruct E2 as (t2 & E2 & E4). apply bind_inv in E4. destruct E4 as (o & N2' & E4). destruct o as [q2|]; [|injection E4 as <-; destruct IS'].
  destruct (wrist_in _ _ _ _ _ _ _ _ _ _ _ E4 IS') as (q4 & q5 & q6 & t4 & t5 & t6 & Q45 & EX & S2 & S1).
  exists q1, q2, q3, q4, q5, q6, t1, t2, t3, t4, t5, t6, Q3, Q45. unfold w_v4, w_v6, w_R05, w_R03, w_p26, w_p2, w_R01, w_v, w_d1. tauto.
Qed.
End Trace.
