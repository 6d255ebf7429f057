(** Property C108: over the reals the program of ModelFloat11 is the model of C36-C41. *)
From Coq Require Import Reals ZArith List Bool Lra Lia.
From Verif Require Import LinAlg RealAux Py FactsReal FactsLinAlg ModelRot SpecRot FactsRot SpecSub FactsSub ModelTransform ModelRobot ModelKin SpecKin ModelSub ModelInvkin SpecInvkin ModelFloat ModelFloat2 ModelFloat3 ModelFloat6 ModelFloat9 ModelFloat10 ModelFloat11 FactsFloat FactsIk64.
From Verif Require Import FactsRobot6.
From Verif Require FactsInvkin PropRobot6 FactsRobot6 FactsIkGeo PropReal PropNorm PropSub2 PropSub4.
Import ListNotations.
Open Scope R_scope.
Notation RA := real_arith.

Lemma flat_ok {X Y} (f g : X -> out (list Y)) l r : (forall x s, f x = Ok s -> g x = Ok s) -> flat_map_out f l = Ok r -> flat_map_out g l = Ok r.
Proof.
  intros H. revert r. induction l as [|x l IH]; intros r E; cbn [flat_map_out] in *; [exact E|].
  apply bind_inv in E. destruct E as (s & E1 & E). apply bind_inv in E. destruct E as (t & E2 & E). rewrite (H _ _ E1). cbn [bind]. rewrite (IH _ E2). exact E.
Qed.
Lemma filter_out_map {X Y} (h : X -> Y) (f : X -> out (option X)) (g : Y -> out (option Y)) l r :
  (forall x, g (h x) = let* o := f x in Ok (match o with Some y => Some (h y) | None => None end)) -> filter_out g (map h l) = Ok r ->
  exists s, r = map h s /\ filter_out f l = Ok s.
Proof.
  intros H. revert r. induction l as [|x l IH]; intros r E; cbn [filter_out map] in *; [injection E as <-; exists []; auto|].
  rewrite H in E. destruct (f x) as [o|e]; [|discriminate]. cbn [bind] in *. apply bind_inv in E. destruct E as (t & E2 & E).
  destruct (IH _ E2) as (s & -> & ->). cbn [bind]. injection E as <-. destruct o as [y|]; [exists (y :: s)|exists s]; auto.
Qed.
Lemma index_map {X Y} (h : X -> Y) l i y : index (map h l) i = Ok y -> exists x, index l i = Ok x /\ y = h x.
Proof.
  unfold index. rewrite nth_error_map. destruct (nth_error l i) as [x|]; cbn; [|discriminate]. intros [= <-]. exists x. auto.
Qed.
Lemma map_out_map {X Y} (h : X -> Y) l idx r : map_out (index (map h l)) idx = Ok r -> exists s, r = map h s /\ map_out (index l) idx = Ok s.
Proof.
  revert r. induction idx as [|i idx IH]; intros r E; cbn [map_out] in *; [injection E as <-; exists []; auto|].
  apply bind_inv in E. destruct E as (y & E1 & E). apply bind_inv in E. destruct E as (t & E2 & E). destruct (index_map _ _ _ _ E1) as (x & -> & ->). destruct (IH _ E2) as (s & -> & ->).
  cbn [bind]. injection E as <-. exists (x :: s). auto.
Qed.
Lemma filter_map_comm {X Y} (h : X -> Y) (p : Y -> bool) l : filter p (map h l) = map h (filter (fun x => p (h x)) l).
Proof. induction l as [|x l IH]; cbn; [reflexivity|]. destruct (p (h x)); cbn; rewrite IH; reflexivity. Qed.
Lemma norm_index z j t x last : normalize z j t = Ok (Some x) -> nlast z = Some last -> exists lj, index last j = Ok lj /\ last_of_joint z j = lj.
Proof.
  intros E EL. unfold last_of_joint. rewrite EL.
  assert (G : exists lj, index last j = Ok lj).
  { unfold normalize in E. cbv zeta in E. rewrite EL in E. destruct (nlimits z) as [[ls us]|]; cbn [bind] in E.
    - destruct (index ls j) as [l|]; cbn [bind] in E; [|discriminate]. destruct (index us j) as [u|]; cbn [bind] in E; [|discriminate].
      match type of E with match ?q with _ => _ end = _ => destruct q as [s|] end; [|discriminate]. destruct (index last j) as [lj|]; [eauto|discriminate].
    - destruct (index last j) as [lj|]; [eauto|discriminate]. }
  destruct G as [lj G]. exists lj. split; [exact G|]. unfold index in G. destruct (nth_error last j) eqn:N; [|discriminate]. injection G as <-. apply nth_error_nth. exact N.
Qed.
Lemma filter_out_some {X} (f : X -> out (option X)) l r x : filter_out f l = Ok r -> In x r -> exists t, f t = Ok (Some x).
Proof.
  revert r. induction l as [|y l IH]; intros r E I; cbn [filter_out] in E; [injection E as <-; destruct I|].
  apply bind_inv in E. destruct E as (o & E1 & E). apply bind_inv in E. destruct E as (t & E2 & E). injection E as <-. destruct o as [v|]; [destruct I as [<-|I]; [eauto|]|]; eapply IH; eauto.
Qed.
Lemma filter_out_ext {X} (f g : X -> out (option X)) l : (forall x, f x = g x) -> filter_out f l = filter_out g l.
Proof. intros H. induction l as [|x l IH]; cbn [filter_out]; [reflexivity|]. rewrite H, IH. reflexivity. Qed.
Lemma real_jd a b : length a = length b -> l_norm RA (l_sub RA a b) = joint_dist a b.
Proof.
  intros L. unfold l_norm, joint_dist. cbn [nsqrt real_arith]. f_equal. revert b L. induction a as [|x a IH]; intros [|y b] L; try discriminate; [reflexivity|].
  injection L as L. change (dist2 (x :: a) (y :: b)) with ((x - y) * (x - y) + dist2 a b). rewrite <- (IH _ L). reflexivity.
Qed.
Section Real.
Context (argsort : list (flt R) -> list nat).
Notation gsort := (fun l : list R => argsort (map Fin l)).
Notation gn := PropNorm.emb_norm.
Lemma half_pi : ndiv RA (npi RA) (nlit RA 2 1) = PI / 2.
Proof. replace (nlit RA 2 1) with 2 by (cbn; lra). reflexivity. Qed.
Lemma real_call1 z j l r : call1 argsort z j l = Ok r -> g_call1 RA remainder gsort (gn z) j l = Ok r.
Proof.
  unfold call1, candidates, g_call1. intros E.
  match goal with |- bind ?a _ = _ => replace a with (filter_out (normalize z j) l) by (symmetry; apply filter_out_ext; intros; apply PropNorm.C87_reals) end.
  destruct (filter_out (normalize z j) l) as [nl|] eqn:EN; [|discriminate]. cbn [bind] in *.
  change (gnlast (gn z)) with (nlast z). destruct (nlast z) as [last|] eqn:EL; [|exact E]. match goal with |- (if ?b then _ else _) = _ => change b with (Nat.ltb (length nl) 2) end. destruct (Nat.ltb (length nl) 2) eqn:B; [exact E|].
  assert (I : exists x, In x nl) by (destruct nl as [|x nl]; [discriminate B|exists x; left; reflexivity]). destruct I as [x I]. destruct (filter_out_some _ _ _ _ EN I) as (t & NT).
  destruct (norm_index _ _ _ _ _ NT EL) as (lj & IX & LJ). match goal with |- bind ?a _ = _ => change a with (index last j) end. rewrite IX, half_pi. cbn [bind]. rewrite LJ in E. cbv zeta. rewrite map_map. exact E.
Qed.
Lemma real_call_flt z j l r : call_flt argsort z j (map Fin l) = Ok r -> exists s, r = map Fin s /\ g_call1 RA remainder gsort (gn z) j l = Ok s.
Proof.
  unfold call_flt, candidates. intros E. apply bind_inv in E. destruct E as (nl & EN & E).
  destruct (filter_out_map Fin (normalize z j) (normalize_flt z j) l nl ltac:(reflexivity) EN) as (s & -> & ES).
  assert (K : exists s', r = map Fin s' /\ call1 argsort z j l = Ok s').
  { unfold call1, candidates. rewrite ES. cbn [bind]. destruct (nlast z); [|injection E as <-; exists s; auto]. rewrite map_length in E. destruct (Nat.ltb (length s) 2); [injection E as <-; exists s; auto|].
    rewrite filter_map_comm in E. rewrite map_map in E. match type of E with context [map Fin (filter ?p s)] => change p with (fun x => Rltb (Rabs (x - last_of_joint z j)) (PI / 2)) in E end.
    destruct (filter (fun x => Rltb (Rabs (x - last_of_joint z j)) (PI / 2)) s) as [|a [|b f]]; cbn [map] in E.
    - exact (map_out_map _ _ _ _ E).
    - injection E as <-. exists [a]. auto.
    - exact (map_out_map _ _ _ _ E). }
  destruct K as (s' & -> & K). exists s'. split; [reflexivity|]. exact (real_call1 _ _ _ _ K).
Qed.
Lemma real_call2 z j l r : call2 argsort z j l = Ok r -> g_call2 RA remainder gsort (gn z) j l = Ok r.
Proof.
  unfold call2, candidates, g_call2. cbv zeta. intros E.
  assert (NP : forall t, g_normalize_pair RA remainder (gn z) j t = normalize_pair z j t) by (intros t; unfold g_normalize_pair, normalize_pair; rewrite !PropNorm.C87_reals; reflexivity).
  match goal with |- bind ?a _ = _ => replace a with (filter_out (normalize_pair z j) l) by (symmetry; apply filter_out_ext; exact NP) end.
  destruct (filter_out (normalize_pair z j) l) as [nl|] eqn:EN; [|discriminate]. cbn [bind] in *.
  change (gnlast (gn z)) with (nlast z). destruct (nlast z) as [last|] eqn:EL; [|exact E]. match goal with |- (if ?b then _ else _) = _ => change b with (Nat.ltb (length nl) 2) end. destruct (Nat.ltb (length nl) 2) eqn:B; [exact E|].
  assert (I : exists x, In x nl) by (destruct nl as [|x nl]; [discriminate B|exists x; left; reflexivity]). destruct I as [x I]. destruct (filter_out_some _ _ _ _ EN I) as (t & NT).
  unfold normalize_pair in NT. apply bind_inv in NT. destruct NT as (oa & NA & NT). apply bind_inv in NT. destruct NT as (ob & NB & NT). destruct oa as [xa|]; [|discriminate]. destruct ob as [xb|]; [|discriminate].
  destruct (norm_index _ _ _ _ _ NA EL) as (la & IA & LA). destruct (norm_index _ _ _ _ _ NB EL) as (lb & IB & LB).
  match goal with |- bind ?a _ = _ => change a with (index last (fst j)) end. rewrite IA. cbn [bind]. match goal with |- bind ?a _ = _ => change a with (index last (snd j)) end. rewrite IB, half_pi. cbn [bind]. rewrite LA, LB in E. rewrite map_map.
  match goal with |- context [argsort (map ?f nl)] => replace (map f nl) with (map (fun t : R * R => Fin (joint_dist [fst t; snd t] [la; lb])) nl); [exact E|] end.
  apply map_ext. intros [u v]. reflexivity.
Qed.
Lemma real_sort last l r : (forall s, In s l -> length s = 6%nat) -> sort_solutions argsort last l = Ok r -> g_sort RA gsort last l = Ok r.
Proof.
  unfold sort_solutions, g_sort. intros L6 E. destruct last as [lj|]; [|exact E]. destruct l as [|s l]; [discriminate|].
  match goal with |- (if ?b then _ else _) = _ => change b with (Nat.eqb (length s) (length lj)) end. destruct (Nat.eqb (length s) (length lj)) eqn:B; [|discriminate]. apply Nat.eqb_eq in B.
  match goal with |- map_out _ (argsort ?a) = _ => replace a with (map (fun s => Fin (joint_dist s lj)) (s :: l)); [exact E|] end.
  rewrite map_map. apply map_ext_in. intros t I. f_equal. symmetry. apply real_jd. exact (eq_trans (L6 t I) (eq_trans (eq_sym (L6 s (or_introl eq_refl))) B)).
Qed.
Lemma l3_lst v : l3 RA (emb_v v) = PropReal.lst v. Proof. reflexivity. Qed.
Lemma real_wrist z H3 H4 H5 R03 R06 q1 q2 q3 s : robot6_wrist argsort z H3 H4 H5 R03 R06 q1 q2 q3 = Ok s ->
  g_robot6_wrist RA remainder gsort (gn z) (emb_v H3) (emb_v H4) (emb_v H5) (emb_m R03) (emb_m R06) q1 q2 q3 = Ok s.
Proof.
  unfold robot6_wrist, g_robot6_wrist. cbv zeta. rewrite emb_cols, real_mm, real_mv, !l3_lst. intros E.
  apply bind_inv in E. destruct E as (Q & E2 & E). rewrite (PropSub2.C107_reals _ _ _ _ _ E2). cbn [bind].
  apply bind_inv in E. destruct E as (N & EN & E). rewrite (real_call2 _ _ _ _ EN). cbn [bind]. revert E. apply flat_ok. intros [q4 q5] t E.
  rewrite !real_rot, !real_mm, emb_cols. rewrite real_mm, real_mv, !l3_lst.
  apply bind_inv in E. destruct E as (t6 & E6 & E). rewrite (PropReal.C79_reals _ _ _ _ E6). cbn [bind]. rewrite PropNorm.C87_reals. exact E.
Qed.
Lemma real_vsub' a b : g_vsub RA (emb_v a) (emb_v b) = emb_v (vsub a b). Proof. reflexivity. Qed.
Lemma real_arm z h0 h1 h2 h3 h4 h5 p0 p1 p2 p3 p4 p5 p6 R06 pT q1 s : perp h2 p2 <> vzero -> perp h2 p3 <> vzero ->
  robot6_arm argsort z [h0; h1; h2; h3; h4; h5] [p0; p1; p2; p3; p4; p5; p6] R06 pT (Fin q1) = Ok s ->
  g_robot6_arm RA remainder gsort (gn z) (map emb_v [h0; h1; h2; h3; h4; h5]) (map emb_v [p0; p1; p2; p3; p4; p5; p6]) (emb_m R06) (emb_v pT) q1 = Ok s.
Proof.
  intros NP2 NP3. unfold robot6_arm, g_robot6_arm. cbn [map index nth_error bind]. cbv zeta. rewrite real_rot, emb_cols, real_mv, real_vsub', real_mv, real_vadd, real_vsub', !l3_lst, PropReal.real_norm. intros E.
  apply bind_inv in E. destruct E as (Q3 & E3 & E).
  assert (NZ : forall k v, perp k v <> vzero -> vsub v (vscale (dot v k) k) <> vzero) by (intros k v H; exact H).
  rewrite (PropReal.C82_reals _ _ _ _ _ (NZ _ _ NP3) (NZ _ _ NP2) E3). cbn [bind].
  apply bind_inv in E. destruct E as (N & EN & E). rewrite (real_call1 _ _ _ _ EN). cbn [bind]. revert E. apply flat_ok. intros q3 t E.
  rewrite real_rot, real_mv, real_vadd, !l3_lst. apply bind_inv in E. destruct E as (t2 & E2 & E). rewrite (PropReal.C79_reals _ _ _ _ E2). cbn [bind]. rewrite PropNorm.C87_reals.
  apply bind_inv in E. destruct E as (o & EO & E). rewrite EO. cbn [bind]. destruct o as [q2|]; [|exact E]. rewrite !real_rot, !real_mm. exact (real_wrist _ _ _ _ _ _ _ _ _ _ E).
Qed.
Lemma real_tinv T : g_tinv RA (emb_t T) = emb_t (tinv T).
Proof. unfold g_tinv, emb_t. cbn [gR gp]. rewrite emb_cols, real_mv. reflexivity. Qed.
Lemma real_unapply r T : g_unapply_aux RA (emb_robot r) (emb_t T) = emb_t (unapply_aux r T).
Proof.
  unfold g_unapply_aux, unapply_aux, emb_robot. cbn [grtool grflange grbase]. destruct (tool_transform r), (rflange r), (rbase r); cbn [option_map]; rewrite ?real_tinv, ?real_tmul; reflexivity.
Qed.
Lemma real_vzerob v : g_vzerob RA (emb_v v) = vzerob v.
Proof.
  assert (G : forall x, g_zero RA x = Reqb x 0).
  { intros x. unfold g_zero. rewrite real_lit0. cbn [nle real_arith]. unfold Rleb, Reqb. destruct (Rle_dec x 0), (Rle_dec 0 x), (Req_EM_T x 0); cbn; try reflexivity; exfalso; lra. }
  unfold g_vzerob, vzerob, emb_v. cbn [w0 w1 w2]. rewrite !G. reflexivity.
Qed.
Lemma real_correct r h0 h1 h2 h3 h4 h5 p0 p1 p2 p3 p4 p5 p6 : opw r h0 h1 h2 h3 h4 h5 p0 p1 p2 p3 p4 p5 p6 ->
  g_correct_P RA (map emb_v [h0; h1; h2; h3; h4; h5]) (map emb_v [p0; p1; p2; p3; p4; p5; p6]) = Ok (map emb_v [p0; p1; p2; vadd p3 p4; vzero; vzero; vadd p6 p5]).
Proof.
  intros O. pose proof (opw_p4 _ _ _ _ _ _ _ _ _ _ _ _ _ _ O) as O4. pose proof (opw_p5 _ _ _ _ _ _ _ _ _ _ _ _ _ _ O) as O5. unfold on_axis, perp in O4, O5.
  assert (OA : forall p h, vsub p (vscale (dot p h) h) = vzero -> g_vzerob RA (g_off_axis RA (emb_v p) (emb_v h)) = true).
  { intros p h E. unfold g_off_axis. rewrite real_dot3, real_vscale, real_vsub', real_vzerob, E. apply vzerob_iff. reflexivity. }
  assert (Z0 : W3 (nzero RA) (nzero RA) (nzero RA) = emb_v vzero) by (rewrite real_lit0; reflexivity).
  unfold g_correct_P, g_correct. cbn [map index nth_error bind]. rewrite !real_vzerob.
  destruct (vzerob p4) eqn:Z4.
  - apply vzerob_iff in Z4. subst p4. cbn [bind index nth_error]. rewrite real_vzerob. rewrite vadd_0_r. destruct (vzerob p5) eqn:Z5.
    + apply vzerob_iff in Z5. subst p5. rewrite vadd_0_r. reflexivity.
    + rewrite OA by exact O5. cbn [assert_ bind]. rewrite Z0. reflexivity.
  - rewrite OA by exact O4. cbn [assert_ bind set_nth firstn skipn app index nth_error]. rewrite real_vzerob, Z0. destruct (vzerob p5) eqn:Z5.
    + apply vzerob_iff in Z5. subst p5. rewrite vadd_0_r. reflexivity.
    + rewrite OA by exact O5. cbn [assert_ bind]. reflexivity.
Qed.
Lemma wrist_six z H3 H4 H5 R03 R06 q1 q2 q3 s : robot6_wrist argsort z H3 H4 H5 R03 R06 q1 q2 q3 = Ok s -> forall x, In x s -> length x = 6%nat.
Proof.
  unfold robot6_wrist. cbv zeta. intros E x I. apply bind_inv in E. destruct E as (Q & _ & E). apply bind_inv in E. destruct E as (N & _ & E).
  destruct (flat_map_in _ _ _ _ E I) as ([q4 q5] & t & _ & E1 & IT). apply bind_inv in E1. destruct E1 as (t6 & _ & E1). apply bind_inv in E1. destruct E1 as (o & _ & E1).
  destruct o; injection E1 as <-; [destruct IT as [<-|[]]; reflexivity|destruct IT].
Qed.
Lemma arm_six z H P R06 pT q1 s : robot6_arm argsort z H P R06 pT q1 = Ok s -> forall x, In x s -> length x = 6%nat.
Proof.
  destruct q1 as [q1|]; [|discriminate]. unfold robot6_arm. cbv zeta. intros E x I. do 13 (apply bind_inv in E; destruct E as (? & _ & E)).
  destruct (flat_map_in _ _ _ _ E I) as (q3 & t & _ & E1 & IT). apply bind_inv in E1. destruct E1 as (t2 & _ & E1). apply bind_inv in E1. destruct E1 as (o & _ & E1).
  destruct o as [q2|]; [exact (wrist_six _ _ _ _ _ _ _ _ _ _ E1 x IT)|]. injection E1 as <-. destruct IT.
Qed.
Lemma nan_only z j l r : (forall t, In t l -> t = NaN) -> call_flt argsort z j l = Ok r -> forall t, In t r -> t = NaN.
Proof.
  intros H E. unfold call_flt, candidates in E. apply bind_inv in E. destruct E as (nl & EN & E).
  assert (G : forall t, In t nl -> t = NaN).
  { intros t I. clear E. revert nl EN I. induction l as [|a l IH]; intros nl EN I; cbn [filter_out] in EN; [injection EN as <-; destruct I|].
    apply bind_inv in EN. destruct EN as (o & E1 & EN). apply bind_inv in EN. destruct EN as (tl & E2 & EN). injection EN as <-. rewrite (H a (or_introl eq_refl)) in E1.
    assert (O : o = None \/ o = Some NaN).
    { unfold normalize_flt in E1. destruct (nlimits z) as [[ls us]|]; [apply bind_inv in E1; destruct E1 as (? & _ & E1); apply bind_inv in E1; destruct E1 as (? & _ & E1); injection E1 as <-; auto|].
      destruct (nlast z); [apply bind_inv in E1; destruct E1 as (? & _ & E1)|]; injection E1 as <-; auto. }
    destruct O as [-> | ->]; [|destruct I as [<-|I]; [reflexivity|]]; exact (IH (fun t It => H t (or_intror It)) _ E2 I). }
  destruct (nlast z); [|injection E as <-; exact G]. destruct (Nat.ltb (length nl) 2); [injection E as <-; exact G|].
  destruct (filter _ nl) as [|a [|b f]] eqn:EF; try (intros t I; apply G; exact (PropNorm.map_out_index_in _ _ _ _ E I)).
  injection E as <-. intros t [<-|[]]. apply G. assert (J : In a [a]) by (left; reflexivity). rewrite <- EF in J. apply filter_In in J. apply J.
Qed.
End Real.

(** A call that returns something over the reals returns the same in the program, with arcsin, np.remainder and the same np.argsort. *)
Theorem C108_reals : forall argsort r pose last sols h0 h1 h2 h3 h4 h5 p0 p1 p2 p3 p4 p5 p6,
  opw r h0 h1 h2 h3 h4 h5 p0 p1 p2 p3 p4 p5 p6 -> perp ey p2 <> vzero -> perp ey (vadd p3 p4) <> vzero -> sols <> [] ->
  snd (robot6_sphericalwrist_invkin argsort r pose last) = Ok sols ->
  g_robot6_invkin real_arith asin remainder (fun l => argsort (map Fin l)) (emb_robot r) (emb_t pose) last = Ok sols.
Proof.
  intros argsort r pose last sols h0 h1 h2 h3 h4 h5 p0 p1 p2 p3 p4 p5 p6 O NP2 NP3 NE E.
  destruct (FactsRobot6.opw_units r _ _ _ _ _ _ _ _ _ _ _ _ _ O) as (U0 & U1 & U2 & U3 & U4 & U5).
  rewrite (FactsRobot6.robot6_unfold argsort r _ _ _ _ _ _ _ _ _ _ _ _ _ O) in E. cbn [snd] in E.
  assert (PN : forall v, perp ey v <> vzero -> perp h2 v <> vzero).
  { intros v H. destruct (opw_h2 _ _ _ _ _ _ _ _ _ _ _ _ _ _ O) as [-> | ->]; [exact H|]. rewrite FactsIkGeo.perp_neg. exact H. }
  unfold g_robot6_invkin. cbv zeta. rewrite real_unapply. unfold emb_robot at 1 2. cbn [grH grP].
  rewrite (opw_H _ _ _ _ _ _ _ _ _ _ _ _ _ _ O), (opw_P _ _ _ _ _ _ _ _ _ _ _ _ _ _ O). 
  match goal with |- bind ?a _ = _ => replace a with (@Ok (list (v3 R)) (map emb_v [p0; p1; p2; vadd p3 p4; vzero; vzero; vadd p6 p5])) by (symmetry; exact (real_correct r _ _ _ _ _ _ _ _ _ _ _ _ _ O)) end. cbn [bind].
  unfold robot6_solve in E. unfold g_robot6_solve. cbv zeta in *. rewrite (opw_H _ _ _ _ _ _ _ _ _ _ _ _ _ _ O) in E.
  unfold emb_robot at 1. cbn [grH]. rewrite (opw_H _ _ _ _ _ _ _ _ _ _ _ _ _ _ O). cbn [map index nth_error bind] in *.
  set (T := unapply_aux r pose) in *. unfold emb_t. cbn [gR gp].
  assert (EY : g_ey real_arith = emb_v ey) by (unfold g_ey; rewrite real_lit0, real_lit1; reflexivity).
  rewrite EY, !real_vadd, real_dot3, real_mv, real_vsub'. change (g_vneg real_arith (emb_v h0)) with (emb_v (vneg h0)).
  set (z := normalize_joints r last false) in *.
  assert (EZ : @GN real_arith (match rlower r, rupper r with Some l, Some u => Some (l, u) | _, _ => None end) last = PropNorm.emb_norm z) by (unfold z, normalize_joints, PropNorm.emb_norm; destruct (rlower r), (rupper r); reflexivity).
  match goal with |- context [@GN ?a ?b ?c] => replace (@GN a b c) with (PropNorm.emb_norm z) by (symmetry; exact EZ) end.
  set (v1 := vsub (tp T) (mvec (tR T) (vadd p6 p5))) in *. set (d1 := dot ey (vadd (vadd p1 p2) (vadd p3 p4))) in *.
  apply bind_inv in E. destruct E as (N1 & E1 & E). apply bind_inv in E. destruct E as (ss & ES & E).
  assert (NS : exists q1, In (Fin q1) N1).
  { destruct ss as [|x ss]; [destruct last; [discriminate|injection E as <-; contradiction]|].
    destruct (flat_map_in _ _ _ _ ES (or_introl eq_refl)) as (q & t & IQ & EA & _). destruct q as [q|]; [exists q; exact IQ|discriminate EA]. }
  assert (UN : unit3 (vneg h0)) by (unfold unit3 in *; rewrite <- U0; la_ring).
  assert (Q1 : exists l, l <> [] /\ subproblem4 ey v1 (vneg h0) d1 = map Fin l).
  { destruct NS as [q1 IN]. destruct (subproblem4 ey v1 (vneg h0) d1) as [|a l] eqn:E4.
    - unfold call_flt, candidates in E1. cbn [filter_out bind] in E1. destruct (nlast z); injection E1 as <-; destruct IN.
    - unfold subproblem4 in E4. destruct (Reqb _ 0).
      + destruct (Rltb _ _); [discriminate|]. exfalso. assert (X : Fin q1 = NaN) by (eapply (nan_only argsort z 0 (a :: l)); [|exact E1|exact IN]; rewrite <- E4; intros t [<-|[<-|[]]]; reflexivity). discriminate X.
      + destruct (Rltb _ _); [discriminate|]. destruct (Rltb _ _).
        * exfalso. assert (X : Fin q1 = NaN) by (eapply (nan_only argsort z 0 (a :: l)); [|exact E1|exact IN]; rewrite <- E4; intros t [<-|[<-|[]]]; reflexivity). discriminate X.
        * rewrite <- E4. eexists [_; _]. split; [discriminate|reflexivity]. }
  destruct Q1 as (l & NL & E4). rewrite (proj1 (PropSub4.C106_reals ey v1 (vneg h0) d1 UN) l NL E4). rewrite E4 in E1.
  destruct (real_call_flt argsort z 0 l N1 E1) as (n1 & -> & G1). match goal with |- bind ?a _ = _ => replace a with (@Ok (list R) n1) by (symmetry; exact G1) end. cbn [bind].
  assert (SIX : forall s, In s ss -> length s = 6%nat).
  { intros s I. destruct (flat_map_in _ _ _ _ ES I) as (q & t & _ & EA & IT). exact (arm_six argsort _ _ _ _ _ _ _ EA s IT). }
  assert (GS : flat_map_out (g_robot6_arm real_arith remainder (fun l => argsort (map Fin l)) (PropNorm.emb_norm z) (map emb_v [h0; h1; h2; h3; h4; h5]) (map emb_v [p0; p1; p2; vadd p3 p4; vzero; vzero; vadd p6 p5]) (emb_m (tR T)) (emb_v (tp T))) n1 = Ok ss).
  { clear - ES PN NP2 NP3. revert ss ES. induction n1 as [|q n1 IH]; intros ss ES; cbn [map flat_map_out] in *; [exact ES|].
    apply bind_inv in ES. destruct ES as (s & E1 & ES). apply bind_inv in ES. destruct ES as (t & E2 & ES). pose proof (real_arm argsort z h0 h1 h2 h3 h4 h5 p0 p1 p2 (vadd p3 p4) vzero vzero (vadd p6 p5) _ _ _ _ (PN _ NP2) (PN _ NP3) E1) as X.
    match goal with |- bind ?a _ = _ => replace a with (@Ok (list (list R)) s) by (symmetry; exact X) end. cbn [bind].
    match goal with |- bind ?a _ = _ => replace a with (@Ok (list (list R)) t) by (symmetry; exact (IH _ E2)) end. exact ES. }
  assert (EH : grH (emb_robot r) = map emb_v [h0; h1; h2; h3; h4; h5]) by (unfold emb_robot; cbn [grH]; rewrite (opw_H _ _ _ _ _ _ _ _ _ _ _ _ _ _ O); reflexivity). rewrite EH.
  match goal with |- bind ?a _ = _ => replace a with (@Ok (list (list R)) ss) by (symmetry; exact GS) end. cbn [bind]. exact (real_sort argsort last ss sols SIX E).
Qed.
Print Assumptions C108_reals.

(** The arm of C38's example with a previous configuration, so the normaliser, np.argsort and np.linalg.norm all run. *)
Example C108_reals_ex : exists sols, sols <> [] /\
  snd (robot6_sphericalwrist_invkin FactsInvkin.insertion_argsort PropRobot6.r_ikl PropRobot6.pose_reg (Some PropRobot6.q_near)) = Ok sols /\
  g_robot6_invkin real_arith asin remainder (fun l => FactsInvkin.insertion_argsort (map Fin l)) (emb_robot PropRobot6.r_ikl) (emb_t PropRobot6.pose_reg) (Some PropRobot6.q_near) = Ok sols.
Proof.
  destruct PropRobot6.C38_ex as (sols & E & NE). exists sols. split; [exact NE|]. split; [exact E|].
  eapply C108_reals; [exact PropRobot6.r_ikl_opw| | |exact NE|exact E].
  - intro H. apply (f_equal vz) in H. unfold perp, ey, vzero, vsub, vscale, dot in H. cbn in H. lra.
  - intro H. apply (f_equal vx) in H. unfold perp, ey, ex, vadd, vzero, vsub, vscale, dot in H. cbn in H. lra.
Qed.
