(** Property C87: joint normalisation in floating-point arithmetic. *)
From Coq Require Import Reals ZArith List Bool Lra Lia.
From Flocq Require Import Core.Core IEEE754.BinarySingleNaN.
From Verif Require Import LinAlg RealAux Py FactsReal ModelRot ModelRobot ModelInvkin ModelFloat SpecRound FactsB64 FactsFloat PropB64 PropPi PropReal ModelFloat3.
Import ListNotations.
Open Scope R_scope.

(** All that is asked of the arithmetic: addition commutes, and zero turns keep an angle inside. *)
Record turns_ok (A : arith) : Prop := {
  t_comm : forall a b, nadd A a b = nadd A b a;
  t_zero : forall l u x, g_inside A l u x = true -> g_inside A l u (nadd A x (nmul A (g_turn A) (nofZ A 0))) = true }.

Lemma start_inside A : turns_ok A -> forall l u theta x, g_start A (Some (l, u)) theta = Some x -> g_inside A l u x = true.
Proof.
  intros [C _] l u theta x. unfold g_start. cbv zeta. destruct (g_inside A l u theta) eqn:E0; [intros H; injection H as <-; exact E0|].
  destruct (g_inside A l u (nadd A (nmul A (g_turn A) (nofZ A (-1))) theta)) eqn:E1; [intros H; injection H as <-; rewrite C; exact E1|].
  destruct (g_inside A l u (nadd A (nmul A (g_turn A) (nofZ A 1)) theta)) eqn:E2; [intros H; injection H as <-; rewrite C; exact E2 | discriminate].
Qed.
Lemma countdown_zero n : In 0%Z (countdown n).
Proof. unfold countdown. apply in_map_iff. exists 0%nat. split; [lia|]. rewrite <- in_rev. apply in_seq. lia. Qed.

(** What the code does once the limits [lu] and the entry [lj] of last_joints are read. *)
Lemma normalize_cases A nrem z joint theta :
  g_normalize A nrem z joint theta =
  let* lu := match gnlimits z with
             | None => Ok None
             | Some (ls, us) => let* l := index ls joint in let* u := index us joint in Ok (Some (l, u))
             end in
  match g_start A lu theta with
  | None => Ok None
  | Some s =>
      match gnlast z with
      | None => Ok (Some s)
      | Some last =>
          let* lj := index last joint in
          match g_turns_to A nrem lj s with
          | None | Some 0%Z => Ok (Some s)
          | Some n =>
              match lu with
              | None => Ok (Some (nadd A s (nmul A (g_turn A) (nofZ A n))))
              | Some (l, u) =>
                  match filter (g_inside A l u) (map (fun m => nadd A s (nmul A (g_turn A) (nofZ A m))) (countdown n)) with
                  | x :: _ => Ok (Some x)
                  | [] => Err IndexError
                  end
              end
          end
      end
  end.
Proof. reflexivity. Qed.

(** The limits hold exactly, for the numbers that are returned. *)
Theorem C87_limits : forall A nrem, turns_ok A -> forall z ls us joint l u theta x,
  gnlimits z = Some (ls, us) -> nth_error ls joint = Some l -> nth_error us joint = Some u ->
  g_normalize A nrem z joint theta = Ok (Some x) -> nlt A l x = true /\ nlt A x u = true.
Proof.
  intros A nrem T z ls us joint l u theta x EL El Eu H.
  assert (G : g_inside A l u x = true).
  { rewrite normalize_cases, EL in H. unfold index in H. rewrite El, Eu in H. cbn [bind] in H.
    destruct (g_start A (Some (l, u)) theta) as [s|] eqn:ES; [|discriminate].
    pose proof (start_inside A T l u theta s ES) as HS.
    destruct (gnlast z) as [last|]; [|injection H as <-; exact HS].
    destruct (nth_error last joint) as [lj|]; cbn [bind] in H; [|discriminate].
    assert (K : forall n, match filter (g_inside A l u) (map (fun m => nadd A s (nmul A (g_turn A) (nofZ A m))) (countdown n)) with
                          | x :: _ => Ok (Some x) | [] => Err IndexError end = Ok (Some x) -> g_inside A l u x = true).
    { intros n Hn. destruct (filter _ _) as [|y ys] eqn:EF; [discriminate|]. injection Hn as ->.
      assert (I : In x (x :: ys)) by (left; reflexivity). rewrite <- EF in I. apply filter_In in I. apply I. }
    destruct (g_turns_to A nrem lj s) as [[|n|n]|]; try (injection H as <-; exact HS); exact (K _ H). }
  apply andb_true_iff in G. exact G.
Qed.

(** No candidate list is empty: the only errors are indices out of range. *)
Theorem C87_total : forall A nrem, turns_ok A -> forall z joint theta,
  (forall ls us, gnlimits z = Some (ls, us) -> (joint < length ls)%nat /\ (joint < length us)%nat) ->
  (forall last, gnlast z = Some last -> (joint < length last)%nat) ->
  exists o, g_normalize A nrem z joint theta = Ok o /\
  (o = None <-> exists ls us l u, gnlimits z = Some (ls, us) /\ nth_error ls joint = Some l /\ nth_error us joint = Some u /\
     g_inside A l u theta = false /\
     forall k, (k = -1 \/ k = 1)%Z -> g_inside A l u (nadd A theta (nmul A (g_turn A) (nofZ A k))) = false).
Proof.
  intros A nrem T z joint theta HL HJ. rewrite normalize_cases.
  assert (X : exists lu, match gnlimits z with
             | None => Ok None
             | Some (ls, us) => let* l := index ls joint in let* u := index us joint in Ok (Some (l, u))
             end = Ok lu /\ match lu with None => gnlimits z = None | Some (l, u) => exists ls us, gnlimits z = Some (ls, us) /\ nth_error ls joint = Some l /\ nth_error us joint = Some u end).
  { destruct (gnlimits z) as [[ls us]|]; [|exists None; auto]. destruct (HL ls us eq_refl) as [H1 H2].
    apply nth_error_Some in H1, H2. unfold index. destruct (nth_error ls joint) as [l|] eqn:E1; [|contradiction].
    destruct (nth_error us joint) as [u|] eqn:E2; [|contradiction]. exists (Some (l, u)). split; [reflexivity|]. exists ls, us. auto. }
  destruct X as (lu & -> & HX). cbn [bind].
  destruct (g_start A lu theta) as [s|] eqn:ES.
  - assert (Q : exists x, match gnlast z with
      | None => Ok (Some s)
      | Some last =>
          let* lj := index last joint in
          match g_turns_to A nrem lj s with
          | None | Some 0%Z => Ok (Some s)
          | Some n =>
              match lu with
              | None => Ok (Some (nadd A s (nmul A (g_turn A) (nofZ A n))))
              | Some (l, u) =>
                  match filter (g_inside A l u) (map (fun m => nadd A s (nmul A (g_turn A) (nofZ A m))) (countdown n)) with
                  | x :: _ => Ok (Some x)
                  | [] => Err IndexError
                  end
              end
          end
      end = Ok (Some x)).
    { destruct (gnlast z) as [last|] eqn:EJ; [|exists s; reflexivity]. pose proof (HJ last eq_refl) as H1. apply nth_error_Some in H1.
      unfold index. destruct (nth_error last joint) as [lj|]; [|contradiction]. cbn [bind].
      assert (K : forall n, exists x, match lu with
              | None => Ok (Some (nadd A s (nmul A (g_turn A) (nofZ A n))))
              | Some (l, u) =>
                  match filter (g_inside A l u) (map (fun m => nadd A s (nmul A (g_turn A) (nofZ A m))) (countdown n)) with
                  | x :: _ => Ok (Some x)
                  | [] => Err IndexError
                  end
              end = Ok (Some x)).
      { intros n. destruct lu as [[l u]|]; [|eexists; reflexivity].
        destruct (filter _ _) as [|y ys] eqn:EF; [|exists y; reflexivity]. exfalso.
        pose proof (t_zero A T l u s (start_inside A T l u theta s ES)) as IZ.
        assert (IN : In (nadd A s (nmul A (g_turn A) (nofZ A 0))) (filter (g_inside A l u) (map (fun m => nadd A s (nmul A (g_turn A) (nofZ A m))) (countdown n)))).
        { apply filter_In. split; [|exact IZ]. apply (in_map (fun m => nadd A s (nmul A (g_turn A) (nofZ A m)))), countdown_zero. }
        rewrite EF in IN. destruct IN. }
      destruct (g_turns_to A nrem lj s) as [[|n|n]|]; [exists s; reflexivity | apply K | apply K | exists s; reflexivity]. }
    destruct Q as (x & ->). exists (Some x). split; [reflexivity|]. split; [discriminate|].
    intros (ls & us & l & u & E0 & E1 & E2 & N0 & N1). exfalso. destruct lu as [[l' u']|]; [|congruence].
    destruct HX as (ls' & us' & E0' & E1' & E2'). rewrite E0 in E0'. injection E0' as <- <-. rewrite E1 in E1'. rewrite E2 in E2'.
    injection E1' as <-. injection E2' as <-. unfold g_start in ES. cbv zeta in ES. rewrite N0 in ES.
    pose proof (N1 (-1)%Z ltac:(lia)) as M1. pose proof (N1 1%Z ltac:(lia)) as M2. rewrite (t_comm A T) in M1, M2. rewrite M1, M2 in ES. discriminate.
  - exists None. split; [reflexivity|]. split; [|reflexivity]. intros _. destruct lu as [[l u]|]; [|discriminate].
    destruct HX as (ls & us & E0 & E1 & E2). exists ls, us, l, u. unfold g_start in ES. cbv zeta in ES.
    destruct (g_inside A l u theta); [discriminate|].
    destruct (g_inside A l u (nadd A (nmul A (g_turn A) (nofZ A (-1))) theta)) eqn:M1; [discriminate|].
    destruct (g_inside A l u (nadd A (nmul A (g_turn A) (nofZ A 1)) theta)) eqn:M2; [discriminate|].
    repeat split; auto. intros k [-> | ->]; rewrite (t_comm A T); assumption.
Qed.

(** The list for one joint: every entry is inside the limits, whatever argsort returns. *)
Lemma filter_out_in {T} (f : T -> out (option T)) l : forall res y, filter_out f l = Ok res -> In y res -> exists x, In x l /\ f x = Ok (Some y).
Proof.
  induction l as [|a l IH]; intros res y E I; cbn [filter_out] in E.
  - injection E as <-. destruct I.
  - destruct (f a) as [o|e] eqn:EA; cbn [bind] in E; [|discriminate]. destruct (filter_out f l) as [ys|e]; cbn [bind] in E; [|discriminate].
    injection E as <-. destruct o as [v|].
    + destruct I as [<- | I]; [exists a; split; [left; reflexivity | exact EA]|].
      destruct (IH ys y eq_refl I) as (x & H1 & H2). exists x. split; [right; exact H1 | exact H2].
    + destruct (IH ys y eq_refl I) as (x & H1 & H2). exists x. split; [right; exact H1 | exact H2].
Qed.
Lemma map_out_index_in {T} (l : list T) : forall is res y, map_out (index l) is = Ok res -> In y res -> In y l.
Proof.
  induction is as [|i is IH]; intros res y E I; cbn [map_out] in E.
  - injection E as <-. destruct I.
  - unfold index at 1 in E. destruct (nth_error l i) as [v|] eqn:EV; cbn [bind] in E; [|discriminate].
    destruct (map_out (index l) is) as [ys|e] eqn:EY; cbn [bind] in E; [|discriminate]. injection E as <-.
    destruct I as [<- | I]; [exact (nth_error_In _ _ EV) | exact (IH ys y eq_refl I)].
Qed.
Theorem C87_list : forall A nrem argsort, turns_ok A -> forall z ls us joint l u theta res x,
  gnlimits z = Some (ls, us) -> nth_error ls joint = Some l -> nth_error us joint = Some u ->
  g_call1 A nrem argsort z joint theta = Ok res -> In x res ->
  (nlt A l x = true /\ nlt A x u = true) /\ exists t, In t theta /\ g_normalize A nrem z joint t = Ok (Some x).
Proof.
  intros A nrem argsort T z ls us joint l u theta res x EL El Eu E I. unfold g_call1 in E.
  destruct (filter_out (g_normalize A nrem z joint) theta) as [normed|e] eqn:EN; cbn [bind] in E; [|discriminate].
  assert (G : In x normed).
  { destruct (gnlast z) as [last|]; [|injection E as <-; exact I].
    destruct (Nat.ltb (length normed) 2); [injection E as <-; exact I|].
    destruct (index last joint) as [lj|e]; cbn [bind] in E; [|discriminate].
    destruct (filter _ normed) as [|y [|y' ys]] eqn:EF.
    - exact (map_out_index_in _ _ _ _ E I).
    - injection E as <-. destruct I as [<- | []]. assert (J : In y [y]) by (left; reflexivity). rewrite <- EF in J. apply filter_In in J. apply J.
    - exact (map_out_index_in _ _ _ _ E I). }
  destruct (filter_out_in _ _ _ _ EN G) as (t & H1 & H2). split; [exact (C87_limits A nrem T z ls us joint l u t x EL El Eu H2) | exists t; auto].
Qed.

(* ---- the reals ---- *)
Definition emb_norm (z : normalizer) : gnormalizer real_arith := @GN real_arith (nlimits z) (nlast z).
Lemma real_turn : g_turn real_arith = 2 * PI.
Proof. unfold g_turn. rewrite real_two. reflexivity. Qed.
Theorem C87_reals : forall z joint theta, g_normalize real_arith remainder (emb_norm z) joint theta = normalize z joint theta.
Proof.
  intros z joint theta. rewrite normalize_cases. unfold normalize. cbv zeta. cbn [emb_norm gnlimits gnlast].
  match goal with |- bind ?a _ = bind ?b _ => change a with b; destruct b as [lu|e] end; cbn [bind]; [|reflexivity].
  match goal with |- _ = match ?q with _ => _ end => assert (ES : g_start real_arith lu theta = q) end.
  { destruct lu as [[l u]|]; [|reflexivity]. unfold g_start. rewrite real_turn. cbv zeta. cbn [nmul nofZ nadd real_arith].
    replace (2 * PI * -1) with (-2 * PI) by ring. replace (2 * PI * 1) with (2 * PI) by ring. reflexivity. }
  rewrite ES. clear ES.
  match goal with |- _ = match ?q with _ => _ end => destruct q as [s|] end; [|reflexivity].
  destruct (nlast z) as [last|]; [|reflexivity].
  change (@index (num real_arith)) with (@index R). destruct (index last joint) as [lj|e]; cbn [bind]; [|reflexivity].
  assert (ET : g_turns_to real_arith remainder lj s = Some (turns_to lj s)).
  { unfold g_turns_to, turns_to. rewrite real_turn. cbn [nfloor nsub nlt npi real_arith]. cbv zeta. reflexivity. }
  rewrite ET, real_turn. destruct (turns_to lj s) as [|n|n]; cbn [Z.eqb]; reflexivity.
Qed.
Lemma real_turns_ok : turns_ok real_arith.
Proof.
  split.
  - intros a b. apply Rplus_comm.
  - intros l u x H. rewrite real_turn. cbn [nadd nmul nofZ real_arith].
    assert (Q : forall y : R, y + 2 * PI * 0 = y) by (intros y; ring). rewrite (Q x). exact H.
Qed.

(* ---- binary64 ---- *)
Lemma b_add_comm x y : b_add x y = b_add y x.
Proof.
  unfold b_add, Bplus. destruct x as [sx|sx| |sx mx ex Bx], y as [sy|sy| |sy my ey By]; try reflexivity.
  - destruct sx, sy; reflexivity.
  - destruct sx, sy; reflexivity.
  - cbv zeta. rewrite (Z.min_comm ey ex). f_equal. unfold Fplus_naive. apply Z.add_comm.
Qed.
Lemma b_turn_zero : b_mul (b_mul (b_lit 2 1) b_pi) (b_ofZ 0) = B754_zero false.
Proof. apply B2SF_inj. vm_compute. reflexivity. Qed.
Theorem b64_turns_ok : forall L dot, turns_ok (b64_arith L dot).
Proof.
  intros L dot. split; [exact b_add_comm|]. intros l u x H. unfold g_turn. cbn [nadd nmul nlit npi nofZ b64_arith] in *. rewrite b_turn_zero.
  destruct x as [[|]|sx| |sx mx ex Bx]; exact H.
Qed.

(** theta plus m turns, as computed *)
Lemma b_turns th m : let x := b_add th (b_mul (b_mul (b_lit 2 1) b_pi) (b_ofZ m)) in bfin x ->
  bfin th /\ Rabs (bval x - (bval th + 2 * PI * IZR m)) <= uu * (Rabs (bval th) + 24 * Rabs (IZR m)).
Proof.
  intros x Fx. unfold x in *. destruct (add_fin _ _ Fx) as [Fth FP]. split; [exact Fth|]. destruct (mul_fin _ _ FP) as [_ Ff].
  pose proof b_pi_err as BP. pose proof two_pi_val as TV. pose proof uu_pos as U0.
  set (tp := b_mul (b_lit 2 1) b_pi) in *. assert (TP : 0 < 2 * PI - bval tp <= 4 * uu) by lra.
  destruct (Z.lt_trichotomy m 0) as [N | [-> | N]].
  - assert (M1 : 1 <= IZR (- m)) by (apply IZR_le; lia). rewrite opp_IZR in M1. rewrite (Rabs_left (IZR m)) by lra.
    pose proof (rnd_err (IZR m)) as E2. rewrite <- (ofZ_val _ Ff) in E2. rewrite (Rabs_left (IZR m)) in E2 by lra.
    pose proof (rnd_err (bval tp * bval (b_ofZ m))) as E3. rewrite <- (mul_val _ _ FP) in E3.
    pose proof (rnd_err (bval th + bval (b_mul tp (b_ofZ m)))) as E4. rewrite <- (add_val _ _ Fx) in E4.
    set (f := bval (b_ofZ m)) in *. set (P := bval (b_mul tp (b_ofZ m))) in *. set (v := bval (b_add th (b_mul tp (b_ofZ m)))) in *.
    assert (E2' : Rabs (- f - - IZR m) <= uu * - IZR m + ee) by (replace (- f - - IZR m) with (- (f - IZR m)) by ring; rewrite Rabs_Ropp; exact E2).
    assert (E3' : Rabs (- P - bval tp * - f) <= uu * Rabs (bval tp * - f) + ee).
    { replace (- P - bval tp * - f) with (- (P - bval tp * f)) by ring. replace (bval tp * - f) with (- (bval tp * f)) by ring. rewrite !Rabs_Ropp. exact E3. }
    assert (E4' : Rabs (- v - (- bval th + - P)) <= uu * Rabs (- bval th + - P) + ee).
    { replace (- v - (- bval th + - P)) with (- (v - (bval th + P))) by ring. replace (- bval th + - P) with (- (bval th + P)) by ring. rewrite !Rabs_Ropp. exact E4. }
    pose proof (turn_err _ _ _ _ _ M1 TP E2' _ E3' E4') as B. rewrite Rabs_Ropp in B.
    replace (v - (bval th + 2 * PI * IZR m)) with (- (- v - (- bval th + 2 * PI * - IZR m))) by ring. rewrite Rabs_Ropp. exact B.
  - assert (E : bval (b_add th (b_mul tp (b_ofZ 0))) = bval th).
    { unfold tp. rewrite b_turn_zero. destruct th as [sx|sx| |sx mx ex Bx]; try reflexivity. destruct sx; reflexivity. }
    rewrite E. replace (bval th - (bval th + 2 * PI * 0)) with 0 by ring. rewrite Rabs_R0. pose proof (Rabs_pos (bval th)). nra.
  - assert (M1 : 1 <= IZR m) by (apply IZR_le; lia). rewrite (Rabs_right (IZR m)) by lra.
    pose proof (rnd_err (IZR m)) as E2. rewrite <- (ofZ_val _ Ff) in E2. rewrite (Rabs_right (IZR m)) in E2 by lra.
    pose proof (rnd_err (bval tp * bval (b_ofZ m))) as E3. rewrite <- (mul_val _ _ FP) in E3.
    pose proof (rnd_err (bval th + bval (b_mul tp (b_ofZ m)))) as E4. rewrite <- (add_val _ _ Fx) in E4.
    exact (turn_err _ _ _ _ _ M1 TP E2 _ E3 E4).
Qed.
Lemma b_lt_val x y : bfin x -> bfin y -> (b_lt x y = true <-> bval x < bval y).
Proof.
  intros Fx Fy. unfold b_lt. rewrite (Bcompare_correct 53 1024 x y Fx Fy). fold (bval x). fold (bval y).
  destruct (Rcompare_spec (bval x) (bval y)); split; intros; try discriminate; try reflexivity; lra.
Qed.
Lemma b_between l u x : bfin l -> bfin u -> b_lt l x = true -> b_lt x u = true -> bfin x /\ bval l < bval x < bval u.
Proof.
  intros Fl Fu H1 H2. assert (Fx : bfin x).
  { destruct x as [sx|[|]| |sx mx ex Bx]; try reflexivity; exfalso.
    - destruct l as [sl|sl| |[|] ml el Bl]; try discriminate.
    - destruct u as [su|su| |[|] mu eu Bu]; try discriminate.
    - destruct l; discriminate. }
  split; [exact Fx|]. split; apply b_lt_val; assumption.
Qed.
Theorem C87_binary64 : forall L dot (z : gnormalizer (b64_arith L dot)) (ls us : list b64) joint (l u theta : b64) x,
  gnlimits z = Some (ls, us) -> nth_error ls joint = Some l -> nth_error us joint = Some u -> bfin l -> bfin u ->
  g_normalize (b64_arith L dot) b_rem z joint theta = Ok (Some x) -> bfin x /\ bval l < bval x < bval u.
Proof.
  intros L dot z ls us joint l u theta x EL El Eu Fl Fu H.
  destruct (C87_limits (b64_arith L dot) b_rem (b64_turns_ok L dot) z ls us joint l u theta x EL El Eu H) as [H1 H2].
  exact (b_between l u x Fl Fu H1 H2).
Qed.

(** The result is the angle plus whole turns, up to rounding. *)
Lemma start_form A lu theta s : g_start A lu theta = Some s ->
  s = theta \/ exists k, (k = -1 \/ k = 1)%Z /\ s = nadd A theta (nmul A (g_turn A) (nofZ A k)).
Proof.
  destruct lu as [[l u]|]; [|intros H; injection H as <-; left; reflexivity]. unfold g_start. cbv zeta.
  destruct (g_inside A l u theta); [intros H; injection H as <-; left; reflexivity|].
  destruct (g_inside A l u (nadd A (nmul A (g_turn A) (nofZ A (-1))) theta)); [intros H; injection H as <-; right; exists (-1)%Z; auto|].
  destruct (g_inside A l u (nadd A (nmul A (g_turn A) (nofZ A 1)) theta)); [intros H; injection H as <-; right; exists 1%Z; auto | discriminate].
Qed.
Lemma normalize_form A nrem z joint theta x : g_normalize A nrem z joint theta = Ok (Some x) ->
  exists lu s, g_start A lu theta = Some s /\ (x = s \/ exists m, x = nadd A s (nmul A (g_turn A) (nofZ A m))).
Proof.
  intros H. rewrite normalize_cases in H.
  match type of H with bind ?a _ = _ => destruct a as [lu|e] end; cbn [bind] in H; [|discriminate].
  destruct (g_start A lu theta) as [s|] eqn:ES; [|discriminate]. exists lu, s. split; [exact ES|].
  assert (Z2 : forall n, match lu with
            | None => Ok (Some (nadd A s (nmul A (g_turn A) (nofZ A n))))
            | Some (l, u) =>
                match filter (g_inside A l u) (map (fun m => nadd A s (nmul A (g_turn A) (nofZ A m))) (countdown n)) with
                | x :: _ => Ok (Some x)
                | [] => Err IndexError
                end
            end = Ok (Some x) -> exists m, x = nadd A s (nmul A (g_turn A) (nofZ A m))).
  { intros n Hn. destruct lu as [[l u]|]; [|injection Hn as <-; exists n; reflexivity].
    destruct (filter _ _) as [|y ys] eqn:EF; [discriminate|]. injection Hn as ->.
    assert (I : In x (x :: ys)) by (left; reflexivity). rewrite <- EF in I. apply filter_In in I. destruct I as [I _].
    apply in_map_iff in I. destruct I as (m & <- & _). exists m. reflexivity. }
  destruct (gnlast z) as [last|]; [|injection H as <-; left; reflexivity].
  destruct (index last joint) as [lj|e]; cbn [bind] in H; [|discriminate].
  destruct (g_turns_to A nrem lj s) as [[|n|n]|]; try (injection H as <-; left; reflexivity); right; exact (Z2 _ H).
Qed.
Lemma free_form A nrem last joint lj theta x : nth_error last joint = Some lj ->
  g_normalize A nrem (GN None (Some last)) joint theta = Ok (Some x) ->
  match nfloor A (nsub A lj theta) (g_turn A) with
  | None => x = theta
  | Some n => let N := if nlt A (npi A) (nrem (nsub A lj theta) (g_turn A)) then (n + 1)%Z else n in
              x = if Z.eqb N 0 then theta else nadd A theta (nmul A (g_turn A) (nofZ A N))
  end.
Proof.
  intros EJ H. rewrite normalize_cases in H. cbn [gnlimits gnlast bind] in H. unfold index in H. rewrite EJ in H. cbn [bind g_start] in H.
  unfold g_turns_to in H. cbv zeta in *. destruct (nfloor A (nsub A lj theta) (g_turn A)) as [n|]; [|injection H as <-; reflexivity].
  destruct (if nlt A (npi A) (nrem (nsub A lj theta) (g_turn A)) then (n + 1)%Z else n); injection H as <-; reflexivity.
Qed.
Lemma start_turns L dot lu theta s : g_start (b64_arith L dot) lu theta = Some s -> bfin s ->
  bfin theta /\ exists k, Rabs (IZR k) <= 1 /\ Rabs (bval s - (bval theta + 2 * PI * IZR k)) <= uu * (Rabs (bval theta) + 24 * Rabs (IZR k)).
Proof.
  intros H Fs. pose proof uu_pos as U0.
  assert (Z0 : s = theta -> bfin theta /\ exists k, Rabs (IZR k) <= 1 /\ Rabs (bval s - (bval theta + 2 * PI * IZR k)) <= uu * (Rabs (bval theta) + 24 * Rabs (IZR k))).
  { intros ->. split; [exact Fs|]. exists 0%Z. rewrite Rabs_R0. split; [lra|]. replace (bval theta - _) with 0 by ring. rewrite Rabs_R0.
    pose proof (Rabs_pos (bval theta)). nra. }
  destruct (start_form _ _ _ _ H) as [E | (k & Hk & E)]; [exact (Z0 E)|].
  change (s = b_add theta (b_mul (b_mul (b_lit 2 1) b_pi) (b_ofZ k))) in E. rewrite E in *. destruct (b_turns _ _ Fs) as [F B].
  split; [exact F|]. exists k. split; [|exact B]. destruct Hk as [-> | ->]; [rewrite Rabs_left | rewrite Rabs_right]; lra.
Qed.
Theorem C87_whole_turns : forall L dot (z : gnormalizer (b64_arith L dot)) joint (theta x : b64),
  g_normalize (b64_arith L dot) b_rem z joint theta = Ok (Some x) -> bfin x ->
  exists n, Rabs (bval x - (bval theta + 2 * PI * IZR n)) <= uu * (3 * Rabs (bval theta) + 24 * Rabs (IZR n) + 60).
Proof.
  intros L dot z joint theta x H Fx. destruct (normalize_form _ _ _ _ _ _ H) as (lu & s & ES & HX).
  assert (Q : exists m, bfin s /\ Rabs (bval x - (bval s + 2 * PI * IZR m)) <= uu * (Rabs (bval s) + 24 * Rabs (IZR m))).
  { destruct HX as [-> | (m & E)].
    - exists 0%Z. split; [exact Fx|]. replace (bval s - _) with 0 by ring. rewrite Rabs_R0. pose proof (Rabs_pos (bval s)). pose proof uu_pos. nra.
    - change (x = b_add s (b_mul (b_mul (b_lit 2 1) b_pi) (b_ofZ m))) in E. rewrite E in *. exists m. exact (b_turns s m Fx). }
  destruct Q as (m & Fs & B). destruct (start_turns L dot lu theta s ES Fs) as (_ & k & K1 & KB).
  exists (k + m)%Z. rewrite plus_IZR.
  pose proof uu_pos as U0. pose proof uu_small as U1. pose proof (Rabs_pos (bval theta)) as T0. pose proof pi_hi as PH. pose proof pi_lo as PL.
  assert (M : Rabs (IZR m) <= Rabs (IZR k + IZR m) + 1).
  { replace (IZR m) with (IZR k + IZR m + - IZR k) at 1 by ring. eapply Rle_trans; [apply Rabs_triang|]. rewrite Rabs_Ropp. lra. }
  assert (KB2 : Rabs (2 * PI * IZR k) <= 7) by (rewrite Rabs_mult, (Rabs_right (2 * PI)) by lra; nra).
  assert (SB : Rabs (bval s) <= Rabs (bval theta) + 7 + uu * (Rabs (bval theta) + 24)).
  { replace (bval s) with ((bval s - (bval theta + 2 * PI * IZR k)) + bval theta + 2 * PI * IZR k) by ring.
    eapply Rle_trans; [apply Rabs_triang|]. eapply Rle_trans; [apply Rplus_le_compat_r, Rabs_triang|].
    assert (uu * (Rabs (bval theta) + 24 * Rabs (IZR k)) <= uu * (Rabs (bval theta) + 24)) by (apply Rmult_le_compat_l; lra). lra. }
  replace (bval x - (bval theta + 2 * PI * (IZR k + IZR m))) with ((bval x - (bval s + 2 * PI * IZR m)) + (bval s - (bval theta + 2 * PI * IZR k))) by ring.
  eapply Rle_trans; [apply Rabs_triang|].
  apply Rle_trans with (uu * ((Rabs (bval theta) + 7 + uu * (Rabs (bval theta) + 24)) + 24 * (Rabs (IZR k + IZR m) + 1)) + uu * (Rabs (bval theta) + 24)).
  - apply Rplus_le_compat; [eapply Rle_trans; [exact B|] | eapply Rle_trans; [exact KB|]]; apply Rmult_le_compat_l; lra.
  - rewrite <- Rmult_plus_distr_l. apply Rmult_le_compat_l; [lra|].
    assert (uu * (Rabs (bval theta) + 24) <= 1 / 1000000 * (Rabs (bval theta) + 24)) by (apply Rmult_le_compat_r; lra). lra.
Qed.

(** np.remainder, computed *)
Lemma rnd_range lo hi v : generic_format radix2 (FLT_exp (-1074) 53) lo -> generic_format radix2 (FLT_exp (-1074) 53) hi -> lo <= v <= hi -> lo <= rnd v <= hi.
Proof.
  intros Gl Gh [H1 H2]. assert (V : Valid_exp (FLT_exp (-1074) 53)) by (apply FLT_exp_valid; reflexivity). unfold rnd. split.
  - apply round_ge_generic; auto using valid_rnd_N.
  - apply round_le_generic; auto using valid_rnd_N.
Qed.
Lemma fmt_bval (x : b64) : generic_format radix2 (FLT_exp (-1074) 53) (bval x).
Proof. exact (generic_format_B2R 53 1024 x). Qed.
Lemma fmt_opp v : generic_format radix2 (FLT_exp (-1074) 53) v -> generic_format radix2 (FLT_exp (-1074) 53) (- v).
Proof. apply generic_format_opp. Qed.
Lemma fmt_0 : generic_format radix2 (FLT_exp (-1074) 53) 0. Proof. apply generic_format_0. Qed.
Lemma bval_max (x : b64) : Rabs (bval x) < bpow radix2 1024.
Proof. exact (abs_B2R_lt_emax 53 1024 x). Qed.
Lemma norm_small (y : b64) r k : Rabs (IZR r * bpow radix2 k) <= Rabs (bval y) ->
  let v := binary_normalize 53 1024 prec64 emax64 mode_NE r k false in bfin v /\ bval v = rnd (IZR r * bpow radix2 k).
Proof.
  intros H v. pose proof (binary_normalize_correct 53 1024 prec64 emax64 mode_NE r k false) as C. cbv zeta in C.
  change (F2R _) with (IZR r * bpow radix2 k) in C.
  change (round radix2 (SpecFloat.fexp 53 1024) (round_mode mode_NE) (IZR r * bpow radix2 k)) with (rnd (IZR r * bpow radix2 k)) in C.
  rewrite Rlt_bool_true in C; [split; apply C|]. apply Rle_lt_trans with (2 := bval_max y).
  assert (G : generic_format radix2 (FLT_exp (-1074) 53) (Rabs (bval y))) by (apply generic_format_abs, fmt_bval).
  apply Rabs_le. apply rnd_range; [apply fmt_opp; exact G | exact G|]. apply Rabs_le_inv. exact H.
Qed.
Lemma rem_val x y n : b_floor x y = Some n ->
  bfin (b_rem x y) /\ Rabs (bval (b_rem x y) - (bval x - IZR n * bval y)) <= 3 * uu * bval y + 3 * ee.
Proof.
  intros H. destruct (floor_le _ _ _ H) as (Fx & Fy & Py & N1). pose proof (floor_gt _ _ _ H) as N2.
  pose proof uu_pos as U0. pose proof uu_small as U1. pose proof ee_pos as E0.
  destruct y as [sy|sy| |[|] m' e' By]; try (destruct x; discriminate).
  destruct x as [sx|sx| |sx m e Bx]; try discriminate; unfold b_floor in H; unfold b_rem.
  - injection H as <-. split; [reflexivity|]. change (bval (B754_zero false)) with 0. change (bval (B754_zero sx)) with 0.
    replace (0 - (0 - 0 * _)) with 0 by ring. rewrite Rabs_R0. nra.
  - set (y := B754_finite false m' e' By : b64) in *. set (a := cond_Zopp sx (Zpos m)) in *. injection H as H.
    set (k := Z.min e e') in *. cbv zeta.
    replace (Z.max 0 (e - e')) with (e - k)%Z in H by lia. replace (Z.max 0 (e' - e)) with (e' - k)%Z in H by lia.
    set (X := (a * 2 ^ (e - k))%Z) in *. set (Y := (Zpos m' * 2 ^ (e' - k))%Z) in *.
    assert (HY : (0 < Y)%Z) by (apply Z.mul_pos_pos; [reflexivity | apply Z.pow_pos_nonneg; lia]).
    change (X / Y = n)%Z in H.
    assert (VX : bval (B754_finite sx m e Bx) = IZR X * bpow radix2 k).
    { unfold bval, B2R, F2R, X. cbn [Fnum Fexp]. fold a. rewrite mult_IZR. change 2%Z with (radix_val radix2). rewrite (IZR_Zpower radix2) by lia.
      rewrite Rmult_assoc, <- bpow_plus. do 2 f_equal. lia. }
    assert (VY : bval y = IZR Y * bpow radix2 k).
    { unfold y, bval, B2R, F2R, Y. cbn [Fnum Fexp cond_Zopp]. rewrite mult_IZR. change 2%Z with (radix_val radix2). rewrite (IZR_Zpower radix2) by lia.
      rewrite Rmult_assoc, <- bpow_plus. do 2 f_equal. lia. }
    pose proof (bpow_gt_0 radix2 k) as K0. set (r := Z.rem X Y) in *.
    assert (RB : (- Y < r < Y)%Z) by (pose proof (Z.rem_bound_abs X Y ltac:(lia)); fold r in H0; lia).
    assert (RA : Rabs (IZR r * bpow radix2 k) <= Rabs (bval y)).
    { rewrite VY, !Rabs_mult. apply Rmult_le_compat_r; [apply Rabs_pos|]. rewrite <- !abs_IZR. apply IZR_le. lia. }
    destruct (norm_small y r k RA) as [FF FV]. pose proof (rnd_err (IZR r * bpow radix2 k)) as ER. rewrite <- FV in ER.
    rewrite (Rabs_right (bval y)) in RA by lra.
    set (f := binary_normalize 53 1024 prec64 emax64 mode_NE r k false) in *.
    assert (ER1 : Rabs (bval f - IZR r * bpow radix2 k) <= uu * bval y + ee) by (pose proof (Rmult_le_compat_l uu _ _ ltac:(lra) RA); lra).
    assert (D1 : X = (Y * n + X mod Y)%Z) by (rewrite <- H; apply Z.div_mod; lia).
    assert (UY : 0 <= uu * bval y) by (apply Rmult_le_pos; lra).
    destruct (Z.ltb_spec r 0) as [R0 | R0].
    + assert (D2 : (X mod Y = r + Y)%Z).
      { symmetry. apply Z.mod_unique with (q := (Z.quot X Y - 1)%Z); [left; lia|]. pose proof (Z.quot_rem' X Y). fold r in H0. lia. }
      assert (VV : bval (B754_finite sx m e Bx) - IZR n * bval y = IZR r * bpow radix2 k + bval y).
      { rewrite VX, VY, D1, D2, !plus_IZR, mult_IZR. ring. }
      assert (R1 : IZR r <= 0) by (apply IZR_le; lia).
      assert (RN : - bval y <= IZR r * bpow radix2 k <= 0) by (split; [apply Rabs_le_inv in RA; lra | nra]).
      assert (FR : - bval y <= bval f <= 0) by (rewrite FV; apply rnd_range; [apply fmt_opp, fmt_bval | apply fmt_0 | exact RN]).
      pose proof (Bplus_correct 53 1024 prec64 emax64 mode_NE f y FF Fy) as C.
      change (round radix2 (SpecFloat.fexp 53 1024) (round_mode mode_NE) (B2R f + B2R y)) with (rnd (bval f + bval y)) in C.
      assert (RG : 0 <= rnd (bval f + bval y) <= bval y) by (apply rnd_range; [apply fmt_0 | apply fmt_bval | lra]).
      rewrite Rlt_bool_true in C.
      2:{ rewrite Rabs_right by lra. apply Rle_lt_trans with (bval y); [lra|]. pose proof (bval_max y). rewrite Rabs_right in H0 by lra. exact H0. }
      destruct C as (CV & CF & _). split; [exact CF|]. change (bval (b_add f y)) with (B2R (Bplus mode_NE f y)). rewrite CV, VV.
      pose proof (rnd_err (bval f + bval y)) as E4. rewrite (Rabs_right (bval f + bval y)) in E4 by lra.
      assert (uu * (bval f + bval y) <= uu * bval y) by (apply Rmult_le_compat_l; lra).
      replace (rnd (bval f + bval y) - (IZR r * bpow radix2 k + bval y)) with ((rnd (bval f + bval y) - (bval f + bval y)) + (bval f - IZR r * bpow radix2 k)) by ring.
      eapply Rle_trans; [apply Rabs_triang|]. lra.
    + assert (D2 : (X mod Y = r)%Z).
      { symmetry. apply Z.mod_unique with (q := Z.quot X Y); [left; lia|]. pose proof (Z.quot_rem' X Y). fold r in H0. lia. }
      assert (VV : bval (B754_finite sx m e Bx) - IZR n * bval y = IZR r * bpow radix2 k).
      { rewrite VX, VY, D1, D2, !plus_IZR, mult_IZR. ring. }
      split; [exact FF|]. rewrite VV. lra.
Qed.

(** Without limits the result is within half a turn of last_joints, up to rounding. *)
Theorem C87_nearest : forall L dot (last : list b64) joint (lj theta x : b64), nth_error last joint = Some lj ->
  g_normalize (b64_arith L dot) b_rem (@GN (b64_arith L dot) None (Some last)) joint theta = Ok (Some x) -> bfin x -> bfin (b_sub lj theta) ->
  Rabs (bval x - bval lj) <= PI + uu * (8 * (Rabs (bval theta) + Rabs (bval lj)) + 64).
Proof.
  intros L dot last joint lj theta x EJ H Fx Fd. apply (free_form (b64_arith L dot) _ _ _ _ _ _ EJ) in H.
  change (match b_floor (b_sub lj theta) (b_mul (b_lit 2 1) b_pi) with
    | None => x = theta
    | Some n => let N := if b_lt b_pi (b_rem (b_sub lj theta) (b_mul (b_lit 2 1) b_pi)) then (n + 1)%Z else n in
                x = if Z.eqb N 0 then theta else b_add theta (b_mul (b_mul (b_lit 2 1) b_pi) (b_ofZ N))
    end) in H. clear EJ.
  pose proof two_pi_ge as TG. pose proof two_pi_val as TV. pose proof b_pi_err as BP.
  assert (TF : bfin (b_mul (b_lit 2 1) b_pi)) by (vm_compute; reflexivity).
  set (tp := b_mul (b_lit 2 1) b_pi) in *. set (d := b_sub lj theta) in *.
  destruct (floor_some d tp Fd TF ltac:(lra)) as (n & EN). rewrite EN in H.
  destruct (floor_le _ _ _ EN) as (_ & _ & _ & N1). pose proof (floor_gt _ _ _ EN) as N2.
  destruct (rem_val _ _ _ EN) as [FR ER].
  pose proof uu_pos as U0. pose proof uu_small as U1. pose proof ee_pos as E0. pose proof pi_hi as PH. pose proof pi_lo as PL.
  assert (EU : ee <= uu * (1 / 1000)).
  { unfold uu, ee. replace (-1075)%Z with (-53 + -1022)%Z by lia. rewrite bpow_plus. apply Rmult_le_compat_l; [apply bpow_ge_0|].
    apply Rle_trans with (bpow radix2 (-10)); [apply bpow_le; lia | cbn; lra]. }
  assert (T7 : bval tp <= 7) by lra.
  assert (U7 : uu * bval tp <= uu * 7) by (apply Rmult_le_compat_l; lra).
  assert (FPI : bfin b_pi) by (vm_compute; reflexivity).
  set (N := if b_lt b_pi (b_rem d tp) then (n + 1)%Z else n) in *.
  assert (DN : Rabs (bval d - IZR N * bval tp) <= PI + 22 * uu).
  { unfold N. apply Rabs_le_inv in ER. destruct (b_lt b_pi (b_rem d tp)) eqn:EB.
    - apply (b_lt_val _ _ FPI FR) in EB. rewrite plus_IZR. apply Rabs_le. split; lra.
    - assert (NB : ~ bval b_pi < bval (b_rem d tp)) by (intros Q; apply (b_lt_val _ _ FPI FR) in Q; congruence). apply Rabs_le. split; lra. }
  assert (XB : bfin theta /\ Rabs (bval x - (bval theta + 2 * PI * IZR N)) <= uu * (Rabs (bval theta) + 24 * Rabs (IZR N))).
  { cbv zeta in H. fold N in H. destruct (Z.eqb_spec N 0) as [EN0 | EN0].
    - rewrite EN0, H in *. split; [exact Fx|]. replace (bval theta - _) with 0 by ring. rewrite !Rabs_R0. pose proof (Rabs_pos (bval theta)). apply Rmult_le_pos; lra.
    - rewrite H in *. exact (b_turns theta _ Fx). }
  destruct XB as [Fth XB].
  pose proof (rnd_err (bval lj - bval theta)) as ED. rewrite <- (sub_val _ _ Fd) in ED. fold d in ED.
  set (t := Rabs (bval theta)) in *. set (l := Rabs (bval lj)) in *.
  assert (T0 : 0 <= t) by apply Rabs_pos. assert (L0 : 0 <= l) by apply Rabs_pos.
  assert (TL : Rabs (bval lj - bval theta) <= t + l).
  { unfold Rminus. eapply Rle_trans; [apply Rabs_triang|]. rewrite Rabs_Ropp. unfold t, l. lra. }
  assert (UTL : uu * Rabs (bval lj - bval theta) <= uu * (t + l)) by (apply Rmult_le_compat_l; lra).
  assert (U2 : uu * (t + l) <= 1 / 1000000 * (t + l)) by (apply Rmult_le_compat_r; lra).
  assert (DB : Rabs (bval d) <= 1.001 * (t + l) + 0.001).
  { replace (bval d) with ((bval d - (bval lj - bval theta)) + (bval lj - bval theta)) by ring. eapply Rle_trans; [apply Rabs_triang|]. lra. }
  assert (NB : Rabs (IZR N) <= 0.17 * (t + l) + 0.6).
  { assert (Q : Rabs (IZR N * bval tp) <= 1.001 * (t + l) + 0.001 + PI + 22 * uu).
    { replace (IZR N * bval tp) with (bval d - (bval d - IZR N * bval tp)) by ring. unfold Rminus at 1. eapply Rle_trans; [apply Rabs_triang|]. rewrite Rabs_Ropp. lra. }
    rewrite Rabs_mult, (Rabs_right (bval tp)) in Q by lra. pose proof (Rabs_pos (IZR N)) as P0.
    assert (Rabs (IZR N) * 6 <= Rabs (IZR N) * bval tp) by (apply Rmult_le_compat_l; lra). lra. }
  replace (bval x - bval lj) with ((bval x - (bval theta + 2 * PI * IZR N)) + (2 * PI - bval tp) * IZR N - (bval d - IZR N * bval tp) + (bval d - (bval lj - bval theta))) by ring.
  eapply Rle_trans; [apply Rabs_triang|]. eapply Rle_trans; [apply Rplus_le_compat_r; unfold Rminus at 1; apply Rabs_triang|]. rewrite Rabs_Ropp.
  eapply Rle_trans; [apply Rplus_le_compat_r, Rplus_le_compat_r, Rabs_triang|].
  assert (Q2 : Rabs ((2 * PI - bval tp) * IZR N) <= 4 * uu * (0.17 * (t + l) + 0.6)).
  { rewrite Rabs_mult, (Rabs_right (2 * PI - bval tp)) by lra. apply Rmult_le_compat; try lra. apply Rabs_pos. }
  assert (Q1 : uu * (t + 24 * Rabs (IZR N)) <= uu * (t + 24 * (0.17 * (t + l) + 0.6))) by (apply Rmult_le_compat_l; lra).
  assert (UL : 0 <= uu * l) by (apply Rmult_le_pos; lra). assert (UT : 0 <= uu * t) by (apply Rmult_le_pos; lra). lra.
Qed.

Definition exA87 : arith := b64_arith exact_libm (fun a b => sum_seq (combine a b)).
(** Joint 1 with limits (-10, 10): last_joints 50 draws the angle 1 up by only one turn; without limits, near 8. *)
Definition ex87 (lims : bool) (lj : Z) : gnormalizer exA87 :=
  @GN exA87 (if lims then Some ([b_ofZ 0; b_ofZ (-10)], [b_ofZ 0; b_ofZ 10]) else None) (Some [b_ofZ 0; b_ofZ lj]).
Definition is_ok87 (o : out (option b64)) : bool := match o with Ok (Some x) => is_finite x && b_lt (b_ofZ 7) x && b_lt x (b_ofZ 8) | _ => false end.
Lemma ok87 o : is_ok87 o = true -> exists x, o = Ok (Some x) /\ bfin x /\ bval (b_ofZ 7) < bval x.
Proof.
  destruct o as [[x|]|e]; try discriminate. cbn [is_ok87]. rewrite !andb_true_iff. intros ((F & H) & _). exists x. split; [reflexivity|]. split; [exact F|].
  apply (proj1 (b_lt_val (b_ofZ 7) x eq_refl F)). exact H.
Qed.
Example C87_ex :
  (exists x, g_normalize exA87 b_rem (ex87 true 50) 1 (b_ofZ 1) = Ok (Some x) /\ bfin x /\ -10 < bval x < 10 /\ 7 < bval x) /\
  (exists x, g_normalize exA87 b_rem (ex87 false 8) 1 (b_ofZ 1) = Ok (Some x) /\ bfin x /\ Rabs (bval x - 8) <= PI + uu * 136) /\
  g_normalize exA87 b_rem (ex87 true 0) 1 (b_ofZ 20) = Ok None.
Proof.
  split; [|split].
  - destruct (ok87 (g_normalize exA87 b_rem (ex87 true 50) 1 (b_ofZ 1))) as (x & E & F & B); [vm_compute; reflexivity|].
    exists x. split; [exact E|]. split; [exact F|].
    destruct (C87_binary64 _ _ (ex87 true 50) _ _ 1%nat (b_ofZ (-10)) (b_ofZ 10) (b_ofZ 1) x eq_refl eq_refl eq_refl eq_refl eq_refl E) as [_ I].
    assert (V1 : bval (b_ofZ (-10)) = -10) by (vm_compute; lra). assert (V2 : bval (b_ofZ 10) = 10) by (vm_compute; lra). assert (V3 : bval (b_ofZ 7) = 7) by (vm_compute; lra).
    lra.
  - destruct (ok87 (g_normalize exA87 b_rem (ex87 false 8) 1 (b_ofZ 1))) as (x & E & F & B); [vm_compute; reflexivity|].
    exists x. split; [exact E|]. split; [exact F|].
    pose proof (C87_nearest _ _ [b_ofZ 0; b_ofZ 8] 1%nat (b_ofZ 8) (b_ofZ 1) x eq_refl E F eq_refl) as I.
    assert (V1 : bval (b_ofZ 8) = 8) by (vm_compute; lra). assert (V2 : bval (b_ofZ 1) = 1) by (vm_compute; lra).
    rewrite V1, V2, (Rabs_right 1), (Rabs_right 8) in I by lra. lra.
  - vm_compute. reflexivity.
Qed.

Print Assumptions C87_limits.
Print Assumptions C87_total.
Print Assumptions C87_list.
Print Assumptions C87_reals.
Print Assumptions C87_binary64.
Print Assumptions C87_whole_turns.
Print Assumptions C87_nearest.
