(** Property C118: equivalent_configurations of whole robots in binary64. *)
From Coq Require Import Reals ZArith List Bool Lra Lia Psatz Permutation.
From Flocq Require Import Core.Core IEEE754.BinarySingleNaN.
From Verif Require Import SpecSub FactsSub ModelFloat6 ModelFloat9 ModelFloat10 ModelFloat12 SpecReach FactsRpy FactsUr64 SpecFind PropIterEnd PropAngle PropUr64 PropNear64.
From Verif Require Import LinAlg RealAux Py FactsReal FactsLinAlg ModelRot SpecRot FactsRot FactsNorm ModelFloat ModelFloat2 ModelFloat3 ModelFloat11 ModelFloat14 SpecRound FactsRound FactsB64 FactsExact FactsTrack FactsFloat SpecArc SpecSub4 SpecRpy FactsPath64 ModelTransform ModelRobot ModelKin ModelInvkin FactsInvkin FactsIkMut SpecKin SpecInvkin FactsKin SpecArc2 SpecMove SpecRobot64 FactsRobot64 SpecTrip64 FactsTrip64 SpecNear64 FactsDist64 SpecEquiv64 FactsEquiv64.
From Verif Require Import FactsIk64 PropFloat PropB64 PropPi PropReal PropMove PropRobot64 PropTrip64.
Import ListNotations.
Open Scope R_scope.

(* ---- any arithmetic ---- *)
(** the whole turns up to the limits can be counted *)
Definition counted (A : arith) (ls us theta : list (num A)) : Prop :=
  forall i l u t, nth_error ls i = Some l -> nth_error us i = Some u -> nth_error theta i = Some t -> nfloor A (nsub A u t) (g_full A) <> None /\ nfloor A (nsub A t l) (g_full A) <> None.
Lemma counted_free (A : arith) ty (ls us theta : list (num A)) : counted A ls us theta -> existsb (g_stuck A) (combine ty (combine theta (combine ls us))) = false.
Proof.
  intros C. destruct (existsb _ _) eqn:E; [|reflexivity]. exfalso. apply existsb_exists in E. destruct E as ((j & t & l & u) & I & B). apply In_nth_error in I. destruct I as (i & Hi). rewrite !combine_nth_error in Hi.
  destruct (nth_error ty i) as [j'|]; [|discriminate]. destruct (nth_error theta i) as [t'|] eqn:ET; [|discriminate]. destruct (nth_error ls i) as [l'|] eqn:EL; [|discriminate]. destruct (nth_error us i) as [u'|] eqn:EU; [|discriminate]. injection Hi as -> -> -> ->.
  destruct (C i l u t EL EU ET) as [C1 C2]. cbn [g_stuck] in B. destruct j; try discriminate B. destruct (nfloor A (nsub A u t) (g_full A)); [|contradiction]. destruct (nfloor A (nsub A t l) (g_full A)); [discriminate B|contradiction].
Qed.
(** The alternatives of one vector: one joint at a time, every combination, and nothing else. *)
Lemma equiv_is (A : arith) (r : grobot A) ls us theta sols : grlower r = Some ls -> grupper r = Some us -> g_equiv A r theta = Ok sols -> forall y, In y sols <-> alternative (g_equiv1 A) (grtype r) ls us theta y.
Proof.
  intros EL EU. unfold g_equiv. rewrite EL, EU. destruct (Nat.eqb (length theta) (length us) && Nat.eqb (length theta) (length ls))%bool eqn:E; [|discriminate]. apply andb_true_iff in E. destruct E as [E1 E2]. apply Nat.eqb_eq in E1, E2.
  destruct (existsb _ _); [discriminate|]. intros Q. injection Q as <-. intros y. exact (loop_all A (grtype r) ls us theta (eq_sym E2) (eq_sym E1) y).
Qed.
Theorem C118_one : forall (A : arith) (r : grobot A) ls us theta, grlower r = Some ls -> grupper r = Some us -> length theta = length us -> length theta = length ls -> counted A ls us theta ->
  exists sols, g_equiv A r theta = Ok sols /\ forall y, In y sols <-> alternative (g_equiv1 A) (grtype r) ls us theta y.
Proof.
  intros A r ls us theta EL EU LU LL C. assert (X : exists sols, g_equiv A r theta = Ok sols).
  { unfold g_equiv. rewrite EL, EU, LU, Nat.eqb_refl, <- LU, LL, Nat.eqb_refl. cbn [andb]. rewrite counted_free by exact C. eexists. reflexivity. }
  destruct X as (sols & E). exists sols. split; [exact E|]. exact (equiv_is A r ls us theta sols EL EU E).
Qed.
(** A rotary joint that can turn towards one limit, with an infinite or undefined distance to the other: the call fails. *)
Theorem C118_endless : forall (A : arith) argsort (r : grobot A) ls us thetas last theta i l u t, grlower r = Some ls -> grupper r = Some us -> In theta thetas -> length ls = length us -> Forall (fun t => length t = length us) thetas ->
  nth_error ls i = Some l -> nth_error us i = Some u -> nth_error theta i = Some t -> nth_error (grtype r) i = Some Rotary ->
  (exists n, nfloor A (nsub A t l) (g_full A) = Some n /\ (0 < n)%Z) /\ nfloor A (nsub A u t) (g_full A) = None \/
  (exists n, nfloor A (nsub A u t) (g_full A) = Some n /\ (0 < n)%Z) /\ nfloor A (nsub A t l) (g_full A) = None ->
  g_equivalent A argsort r thetas last = Err ValueError.
Proof.
  intros A argsort r ls us thetas last theta i l u t EL EU IT LE LT Hl Hu Ht HR H. unfold g_equivalent. assert (X : flat_map_out (g_equiv A r) thetas = Err ValueError); [|rewrite X; reflexivity].
  assert (S : existsb (g_stuck A) (combine (grtype r) (combine theta (combine ls us))) = true).
  { apply existsb_exists. exists (Rotary, (t, (l, u))). split; [apply nth_error_In with i; rewrite !combine_nth_error, HR, Ht, Hl, Hu; reflexivity|]. cbn [g_stuck]. unfold g_quot. destruct H as [[(n & E & Hn) N]|[(n & E & Hn) N]]; rewrite E, N; apply Z.ltb_lt in Hn; rewrite Hn; reflexivity. }
  induction LT as [|a thetas La LT IH]; [destruct IT|]. cbn [flat_map_out]. destruct IT as [->|IT].
  - unfold g_equiv. rewrite EL, EU, La, <- LE, Nat.eqb_refl. cbn [andb]. rewrite S. reflexivity.
  - unfold g_equiv at 1. rewrite EL, EU, La, <- LE, Nat.eqb_refl. cbn [andb]. destruct (existsb (g_stuck A) (combine (grtype r) (combine a (combine ls us)))); [reflexivity|]. cbn [bind]. rewrite (IH IT). reflexivity.
Qed.
Lemma equiv_inv (A : arith) (r : grobot A) theta sols : g_equiv A r theta = Ok sols -> exists ls us, grlower r = Some ls /\ grupper r = Some us /\ length theta = length us /\ length theta = length ls.
Proof.
  unfold g_equiv. destruct (grlower r) as [ls|]; [|discriminate]. destruct (grupper r) as [us|]; [|discriminate].
  destruct (Nat.eqb (length theta) (length us) && Nat.eqb (length theta) (length ls))%bool eqn:E; [|discriminate]. apply andb_true_iff in E. destruct E as [E1 E2]. apply Nat.eqb_eq in E1, E2. intros _. exists ls, us. auto.
Qed.
Lemma perm_has {X} (sols : list X) idx res : Permutation idx (seq 0 (length sols)) -> map_out (index sols) idx = Ok res -> forall y, In y sols <-> In y res.
Proof.
  intros PE E y. split.
  - intros I. apply In_nth_error in I. destruct I as (a & Ha). assert (IA : In a idx). { apply (Permutation_in a (Permutation_sym PE)). apply in_seq. assert (a < length sols)%nat by (apply nth_error_Some; congruence). lia. }
    clear PE. revert res E. induction idx as [|k idx IH]; intros res E; [destruct IA|]. cbn [map_out] in E. unfold index at 1 in E. destruct (nth_error sols k) as [v|] eqn:EV; cbn [bind] in E; [|discriminate].
    destruct (map_out (index sols) idx) as [ys|e] eqn:EY; cbn [bind] in E; [|discriminate]. injection E as <-. destruct IA as [<-|IA]; [left; congruence|right; exact (IH IA ys eq_refl)].
  - intros I. exact (PropNorm.map_out_index_in _ _ _ _ E I).
Qed.
Theorem C118_list : forall (A : arith) argsort (r : grobot A) ls us thetas last res, (forall l, Permutation (argsort l) (seq 0 (length l))) -> grlower r = Some ls -> grupper r = Some us ->
  g_equivalent A argsort r thetas last = Ok res -> forall y, In y res <-> exists theta, In theta thetas /\ alternative (g_equiv1 A) (grtype r) ls us theta y.
Proof.
  intros A argsort r ls us thetas last res PE EL EU E y. unfold g_equivalent in E. apply bind_inv in E. destruct E as (sols & ES & E).
  assert (K : In y sols <-> In y res).
  { unfold g_sort in E. destruct last as [lj|]; [|injection E as <-; reflexivity]. destruct sols as [|s l]; [discriminate|]. destruct (Nat.eqb (length s) (length lj)); [|discriminate].
    refine (perm_has (s :: l) _ res _ E y). eapply Permutation_trans; [apply PE|]. rewrite map_length. apply Permutation_refl. }
  rewrite <- K, (flat_map_out_in _ _ _ ES). split.
  - intros (theta & ys & IT & EY & IY). exists theta. split; [exact IT|]. apply (equiv_is A r ls us theta ys EL EU EY). exact IY.
  - intros (theta & IT & AL). assert (X : exists ys, g_equiv A r theta = Ok ys).
    { clear - ES IT. revert sols ES. induction thetas as [|t thetas IH]; intros sols ES; [destruct IT|]. cbn [flat_map_out] in ES. apply bind_inv in ES. destruct ES as (a & Ea & ES). apply bind_inv in ES. destruct ES as (b & Eb & _).
      destruct IT as [<-|IT]; [exists a; exact Ea|exact (IH IT b Eb)]. }
    destruct X as (ys & EY). exists theta, ys. split; [exact IT|]. split; [exact EY|]. apply (equiv_is A r ls us theta ys EL EU EY). exact AL.
Qed.
(** Without last_joints the call succeeds; with last_joints exactly when there is an alternative. *)
Theorem C118_total : forall (A : arith) argsort (r : grobot A) ls us thetas, grlower r = Some ls -> grupper r = Some us -> length ls = length us -> Forall (fun t => length t = length us) thetas -> Forall (counted A ls us) thetas ->
  exists sols, g_equivalent A argsort r thetas None = Ok sols /\
    forall lj, length lj = length us -> (forall l, Permutation (argsort l) (seq 0 (length l))) ->
      (sols = [] /\ g_equivalent A argsort r thetas (Some lj) = Err ValueError) \/ (sols <> [] /\ exists res, g_equivalent A argsort r thetas (Some lj) = Ok res).
Proof.
  intros A argsort r ls us thetas EL EU LE HT HC. assert (X : exists sols, flat_map_out (g_equiv A r) thetas = Ok sols /\ forall y, In y sols -> length y = length us).
  { induction HT as [|t thetas LT HT IH]; [exists []; split; [reflexivity|intros y []]|]. inversion HC as [|? ? C1 C2]; subst. destruct (IH C2) as (s & Es & Ls). destruct (C118_one A r ls us t EL EU LT ltac:(congruence) C1) as (a & Ea & Ga). exists (a ++ s). cbn [flat_map_out]. rewrite Ea. cbn [bind]. rewrite Es. cbn [bind]. split; [reflexivity|].
    intros y I. apply in_app_or in I. destruct I as [I|I]; [apply Ga in I; destruct I as [L _]; congruence|exact (Ls y I)]. }
  destruct X as (sols & ES & LS). exists sols. unfold g_equivalent. rewrite ES. cbn [bind]. split; [reflexivity|]. intros lj LJ PE. unfold g_sort. destruct sols as [|s l]; [left; split; reflexivity|right]. split; [discriminate|].
  rewrite (LS s (or_introl eq_refl)), LJ, Nat.eqb_refl. set (keys := map _ (s :: l)). assert (LK : length keys = length (s :: l)) by apply map_length. pose proof (PE keys) as P. rewrite LK in P.
  assert (Q : forall idx, (forall a, In a idx -> (a < length (s :: l))%nat) -> exists res, map_out (index (s :: l)) idx = Ok res).
  { induction idx as [|k idx IH]; intros H; [exists []; reflexivity|]. destruct IH as (ys & Ey); [intros a Ia; apply H; right; exact Ia|]. destruct (nth_some (s :: l) k (H k (or_introl eq_refl))) as (v & Hv). cbn [map_out]. unfold index at 1. rewrite Hv. cbn [bind]. rewrite Ey. cbn [bind]. eexists. reflexivity. }
  apply Q. intros a Ia. apply (Permutation_in a P) in Ia. apply in_seq in Ia. lia.
Qed.
(** Over the reals the text is the model of the other properties. *)
Lemma real_full : g_full real_arith = 2 * PI.
Proof. unfold g_full. rewrite real_two. reflexivity. Qed.
Lemma real_change ind x l : (ind < length l)%nat -> g_change real_arith ind (fun t => t + x) l = add_at ind x l.
Proof. intros L. unfold g_change, add_at. rewrite (nth_error_nth' l 0 L). reflexivity. Qed.
Lemma change_ext (A : arith) k f g (l : list (num A)) : (forall x, f x = g x) -> g_change A k f l = g_change A k g l.
Proof. intros H. unfold g_change. destruct (nth_error l k); [rewrite H|]; reflexivity. Qed.
Lemma real_shifts theta found ind n s op : (ind < length theta)%nat -> (forall y, In y found -> length y = length theta) -> (forall a b : R, op a b = a + s * b) ->
  g_shifts real_arith theta found ind op n = shifts theta found ind s n.
Proof.
  intros HI HF HO. unfold g_shifts, shifts. rewrite !flat_map_concat_map. f_equal. apply map_ext. intros j. apply map_ext_in. intros y IY.
  assert (LY : length y = length theta) by (apply in_app_or in IY; destruct IY as [IY|[<-|[]]]; [exact (HF y IY)|reflexivity]).
  refine (eq_trans _ (real_change ind (s * (2 * PI * INR (S j))) y (eq_ind_r (fun k => (ind < k)%nat) HI LY))). apply change_ext. intros x. rewrite HO. rewrite real_full. cbn [nmul nofZ real_arith].
  assert (E : IZR (Z.of_nat j + 1) = INR (S j)) by (rewrite S_INR, INR_IZR_INZ, plus_IZR; reflexivity). rewrite E. reflexivity.
Qed.
Theorem C118_reals : forall r theta, g_equiv real_arith (emb_robot r) theta = equiv1 r theta.
Proof.
  intros r theta. unfold g_equiv, equiv1, emb_robot. cbn [grlower grupper grtype]. destruct (rlower r) as [ls|]; [|reflexivity]. destruct (rupper r) as [us|]; [|reflexivity].
  match goal with |- (if ?c then _ else _) = (if ?d then _ else _) => change c with d; destruct d; [|reflexivity] end. rewrite counted_free by (intros i l u t _ _ _; split; discriminate). cbv zeta. apply f_equal.
  set (up := map (fun p => floor_div (snd p - fst p) (2 * PI)) (combine theta us)). set (lo := map (fun p => floor_div (fst p - snd p) (2 * PI)) (combine theta ls)).
  assert (Q : forall x, g_quot real_arith x = floor_div x (2 * PI)) by (intros x; unfold g_quot; rewrite real_full; reflexivity).
  match goal with |- fold_left (g_equiv_step _ _ _ ?a ?b) _ _ = _ => assert (EU : a = up) by (apply map_ext; intros p; apply Q); assert (EL : b = lo) by (apply map_ext; intros p; apply Q); rewrite EU, EL; clear EU EL end.
  assert (G : forall m k found, (k + m <= length theta)%nat -> (forall y, In y found -> length y = length theta) -> fold_left (g_equiv_step real_arith theta (rtype r) up lo) (seq k m) found = fold_left (equiv_step theta (rtype r) up lo) (seq k m) found).
  { induction m as [|m IH]; intros k found Hk HF; [reflexivity|]. cbn [seq fold_left].
    assert (E1 : g_equiv_step real_arith theta (rtype r) up lo found k = equiv_step theta (rtype r) up lo found k).
    { unfold g_equiv_step, equiv_step. cbv zeta. destruct (_ || _)%bool; [|reflexivity]. destruct (nth_error (rtype r) k) as [[]|]; try reflexivity.
      rewrite (real_shifts theta found k _ 1 (nadd real_arith)), (real_shifts theta found k _ (-1) (nsub real_arith)); try (lia || exact HF); [reflexivity| |]; intros a b; cbn [nadd nsub real_arith]; ring. }
    rewrite E1. apply IH; [lia|]. intros y IY. unfold equiv_step in IY. cbv zeta in IY. destruct (_ || _)%bool; [|exact (HF y IY)]. destruct (nth_error (rtype r) k) as [[]|]; try exact (HF y IY).
    apply in_app_or in IY. destruct IY as [IY|IY]; [exact (HF y IY)|]. assert (SL : forall s n z, In z (shifts theta found k s n) -> length z = length theta).
    { intros s n z IZ. unfold shifts in IZ. apply in_flat_map in IZ. destruct IZ as (j & _ & IZ). apply in_map_iff in IZ. destruct IZ as (b & <- & IB). unfold add_at. rewrite set_nth_length. apply in_app_or in IB. destruct IB as [IB|[<-|[]]]; [exact (HF b IB)|reflexivity]. }
    apply in_app_or in IY. destruct IY as [IY|IY]; exact (SL _ _ _ IY). }
  apply (G (length theta) 0%nat []); [apply le_n|intros y []].
Qed.

(* ---- binary64 ---- *)
Lemma ofZ_small m : (Z.abs m <= 512)%Z -> bfin (b_ofZ m) /\ Rabs (bval (b_ofZ m)) <= bpow radix2 9.
Proof.
  intros B. assert (B' : Rabs (IZR m) <= bpow radix2 9). { rewrite <- abs_IZR. change (bpow radix2 9) with (IZR 512). apply IZR_le. lia. }
  assert (R : Rabs (rnd (IZR m)) <= bpow radix2 9) by (apply rnd_abs_le; [lia|exact B']).
  assert (F : bfin (b_ofZ m)).
  { pose proof (binary_normalize_correct 53 1024 prec64 emax64 mode_NE m 0 false) as C. cbv zeta in C. replace (F2R _) with (IZR m) in C by (unfold F2R; cbn; ring).
    change (round radix2 _ _ (IZR m)) with (rnd (IZR m)) in C. rewrite (Rlt_bool_true (Rabs (rnd (IZR m)))) in C; [apply C|]. eapply Rle_lt_trans; [exact R|]. apply bpow_lt. lia. }
  split; [exact F|]. rewrite (ofZ_val m F). exact R.
Qed.
Lemma full_fin : bfin (b_mul (b_lit 2 1) b_pi) /\ Rabs (bval (b_mul (b_lit 2 1) b_pi)) <= bpow radix2 3.
Proof. split; [reflexivity|]. change (bpow radix2 3) with 8. apply Rabs_le. vm_compute. lra. Qed.
Lemma op_fin k v : (k <= 1000)%Z -> Rabs v <= bpow radix2 k -> Rlt_bool (Rabs (rnd v)) (bpow radix2 1024) = true.
Proof. intros K H. apply in_range. eapply Rle_trans; [exact H|]. apply bpow_le. exact K. Qed.
(** the number of turns that fit *)
Lemma quot_few L dot a b : sane a -> sane b -> (g_quot (b64_arith L dot) (nsub (b64_arith L dot) a b) <= 342)%Z.
Proof.
  intros [Fa Ba] [Fb Bb]. unfold g_quot. change (nfloor (b64_arith L dot)) with b_floor. change (g_full (b64_arith L dot)) with (b_mul (b_lit 2 1) b_pi). change (nsub (b64_arith L dot) a b) with (b_sub a b).
  destruct (b_floor (b_sub a b) (b_mul (b_lit 2 1) b_pi)) as [n|] eqn:E; [|lia]. destruct (floor_le _ _ _ E) as (Fd & _ & _ & Hn). pose proof two_pi_ge as TP.
  assert (V : Rabs (bval (b_sub a b)) <= bpow radix2 11). { rewrite (sub_val _ _ Fd). apply rnd_abs_le; [lia|]. apply Rabs_le_inv in Ba, Bb. change (bpow radix2 11) with 2048. apply Rabs_le. lra. }
  change (bpow radix2 11) with 2048 in V. apply Rabs_le_inv in V. destruct (Z_le_dec n 342) as [H|H]; [exact H|]. exfalso. assert (343 <= IZR n) by (apply IZR_le; lia). nra.
Qed.
(** each entry: a finite number, the angle plus whole turns *)
Lemma entry_turn L dot l u t x : sane l -> sane u -> sane t -> In x (g_equiv1 (b64_arith L dot) l u t) ->
  bfin x /\ exists n : Z, n <> 0%Z /\ Rabs (bval x - (bval t + 2 * PI * IZR n)) <= bpow radix2 (-37).
Proof.
  intros SL SU ST IX. pose proof (proj1 (in_equiv1 (b64_arith L dot) [] [] [] eq_refl eq_refl l u t x) IX) as IY. pose proof uu_pos as U. pose proof uu_small as US. pose proof pi_lo as PL. assert (E37 : bpow radix2 (-37) = 65536 * uu) by (unfold uu; change 65536 with (bpow radix2 16); rewrite <- bpow_plus; reflexivity).
  assert (K : forall m, (1 <= m <= 342)%Z -> bfin (b_mul (b_mul (b_lit 2 1) b_pi) (b_ofZ m)) /\ Rabs (bval (b_mul (b_mul (b_lit 2 1) b_pi) (b_ofZ m))) <= bpow radix2 12).
  { intros m Hm. destruct (ofZ_small m ltac:(lia)) as [Fm Bm]. destruct full_fin as [Ff Bf]. assert (BP : Rabs (bval (b_mul (b_lit 2 1) b_pi) * bval (b_ofZ m)) <= bpow radix2 12).
    { rewrite Rabs_mult. change 12%Z with (3 + 9)%Z. rewrite bpow_plus. apply Rmult_le_compat; try apply Rabs_pos; assumption. }
    destruct (mul_range _ _ Ff Fm (op_fin 12 _ ltac:(lia) BP)) as [FP VP]. split; [exact FP|]. rewrite VP. apply rnd_abs_le; [lia|exact BP]. }
  assert (FX : bfin x /\ Rabs (bval x) <= bpow radix2 13).
  { destruct ST as [Ft Bt]. assert (S13 : forall P, Rabs P <= bpow radix2 12 -> Rabs (bval t + P) <= bpow radix2 13 /\ Rabs (bval t - P) <= bpow radix2 13).
    { intros P BP. change (bpow radix2 12) with 4096 in BP. change (bpow radix2 13) with 8192. apply Rabs_le_inv in BP, Bt. split; apply Rabs_le; lra. }
    destruct IY as [(j & Hj & ->)|(j & Hj & ->)].
    - pose proof (quot_few L dot u t SU (conj Ft Bt)) as Q. destruct (K (Z.of_nat j + 1)%Z ltac:(lia)) as [FP BP]. destruct (S13 _ BP) as [B1 _].
      destruct (add_range t _ Ft FP (op_fin 13 _ ltac:(lia) B1)) as [F V]. change (nadd (b64_arith L dot)) with b_add. change (nmul (b64_arith L dot) (g_full (b64_arith L dot)) (nofZ (b64_arith L dot) (Z.of_nat j + 1))) with (b_mul (b_mul (b_lit 2 1) b_pi) (b_ofZ (Z.of_nat j + 1))).
      split; [exact F|]. rewrite V. apply rnd_abs_le; [lia|exact B1].
    - pose proof (quot_few L dot t l (conj Ft Bt) SL) as Q. destruct (K (Z.of_nat j + 1)%Z ltac:(lia)) as [FP BP]. destruct (S13 _ BP) as [_ B1].
      destruct (sub_range t _ Ft FP (op_fin 13 _ ltac:(lia) B1)) as [F V]. change (nsub (b64_arith L dot)) with b_sub. change (nmul (b64_arith L dot) (g_full (b64_arith L dot)) (nofZ (b64_arith L dot) (Z.of_nat j + 1))) with (b_mul (b_mul (b_lit 2 1) b_pi) (b_ofZ (Z.of_nat j + 1))).
      split; [exact F|]. rewrite V. apply rnd_abs_le; [lia|exact B1]. }
  destruct FX as [F BX]. split; [exact F|]. destruct (C81_turns L dot l u t x IX F) as (n & Hn & E). exists n. split; [exact Hn|]. eapply Rle_trans; [exact E|]. rewrite E37, (Rmult_comm 65536). apply Rmult_le_compat_l; [lra|].
  destruct ST as [_ Bt]. change (bpow radix2 13) with 8192 in BX. pose proof (Rabs_pos (bval t)) as T0. pose proof (Rabs_pos (IZR n)) as N0. set (N := Rabs (IZR n)) in *.
  assert (Q1 : 2 * PI * N <= 8192 + 1024 + uu * (Rabs (bval t) + 24 * N)).
  { assert (EN : 2 * PI * N = Rabs (2 * PI * IZR n)) by (rewrite Rabs_mult, (Rabs_right (2 * PI)) by lra; reflexivity). rewrite EN. replace (2 * PI * IZR n) with (bval x + (- bval t + - (bval x - (bval t + 2 * PI * IZR n)))) by ring.
    eapply Rle_trans; [apply Rabs_triang|]. eapply Rle_trans; [apply Rplus_le_compat_l, Rabs_triang|]. rewrite !Rabs_Ropp. lra. }
  assert (uu * (Rabs (bval t) + 24 * N) <= 1 / 1000000 * (Rabs (bval t) + 24 * N)) by (apply Rmult_le_compat_r; lra). assert (314 / 50 * N <= 2 * PI * N) by (apply Rmult_le_compat_r; lra). lra.
Qed.
Lemma near_any (d : R) ty : forall xs ts, length xs = length ty -> length ts = length ty ->
  (forall i j x t, nth_error ty i = Some j -> nth_error xs i = Some x -> nth_error ts i = Some t -> exists n : Z, (turning j = false -> n = 0%Z) /\ Rabs (x - (t + 2 * PI * IZR n)) <= d) -> near_turns d ty xs ts.
Proof.
  induction ty as [|j ty IH]; intros xs ts L1 L2 HN.
  - destruct xs; [|discriminate]. destruct ts; [|discriminate]. constructor.
  - destruct xs as [|x xs]; [discriminate|]. destruct ts as [|t ts]; [discriminate|]. destruct (HN 0%nat j x t eq_refl eq_refl eq_refl) as (n & Z0 & Hn). apply nt_cons with (n := n); [exact Z0|exact Hn|].
    apply IH; [injection L1; auto|injection L2; auto|]. intros i j' x' t' Hj Hx Ht. exact (HN (S i) j' x' t' Hj Hx Ht).
Qed.
Lemma sane_nth l i x : Forall sane l -> nth_error l i = Some x -> sane x.
Proof. intros F H. apply (proj1 (Forall_forall _ _) F). eapply nth_error_In. exact H. Qed.
(** An alternative consists of numbers and agrees with the configuration up to whole turns of rotary joints. *)
Theorem C118_turns : forall L dot ty (ls us theta y : list b64), Forall sane ls -> Forall sane us -> Forall sane theta -> length ty = length theta ->
  alternative (A := b64_arith L dot) (g_equiv1 (b64_arith L dot)) ty ls us theta y ->
  Forall bfin y /\ near_turns (bpow radix2 (-37)) ty (map bval y) (map bval theta) /\ Exists (fun p => 5 < Rabs (bval (fst p) - bval (snd p))) (combine y theta).
Proof.
  intros L dot ty ls us theta y SL SU ST LT (LY & fl & LF & TR & G). assert (LF' : @length bool fl = @length b64 theta) by exact LF. assert (EQ : @length b64 y = @length b64 theta) by exact LY.
  assert (K : forall i x t, nth_error y i = Some x -> nth_error theta i = Some t -> bfin x /\ exists n : Z, (forall j, nth_error ty i = Some j -> turning j = false -> n = 0%Z) /\ Rabs (bval x - (bval t + 2 * PI * IZR n)) <= bpow radix2 (-37) /\ (nth_error fl i = Some true -> n <> 0%Z)).
  { intros i x t Hx Ht. assert (LI : (i < length theta)%nat) by (apply nth_error_Some; congruence). destruct (nth_some fl i ltac:(lia)) as (b & Hb). pose proof (G i b t x Hb Ht Hx) as GI. destruct b.
    - destruct GI as (l & u & Hl & Hu & HR & IX). destruct (entry_turn L dot l u t x (sane_nth _ _ _ SL Hl) (sane_nth _ _ _ SU Hu) (sane_nth _ _ _ ST Ht) IX) as (F & n & Hn & D).
      split; [exact F|]. exists n. split; [intros j Hj TJ; rewrite HR in Hj; injection Hj as <-; discriminate TJ|]. split; [exact D|]. intros _. exact Hn.
    - subst x. split; [apply (sane_nth _ _ _ ST Ht)|]. exists 0%Z. split; [reflexivity|]. split; [|congruence]. replace (bval t - _) with 0 by ring. rewrite Rabs_R0. apply bpow_ge_0. }
  split; [|split].
  - apply Forall_forall. intros x IX. apply In_nth_error in IX. destruct IX as (i & Hx). assert (LI : (i < length y)%nat) by (apply nth_error_Some; congruence). destruct (nth_some theta i ltac:(lia)) as (t & Ht). apply (K i x t Hx Ht).
  - apply near_any; [rewrite map_length; congruence|rewrite map_length; congruence|]. intros i j x t Hj Hx Ht. rewrite nth_error_map in Hx, Ht. destruct (nth_error y i) as [bx|] eqn:EX; [|discriminate]. destruct (nth_error theta i) as [bt|] eqn:ET; [|discriminate].
    injection Hx as <-. injection Ht as <-. destruct (K i bx bt EX ET) as (_ & n & Z0 & D & _). exists n. split; [exact (Z0 j Hj)|exact D].
  - apply In_nth_error in TR. destruct TR as (i & Hi). assert (LI : (i < length fl)%nat) by (apply nth_error_Some; congruence). destruct (nth_some theta i ltac:(lia)) as (t & Ht). destruct (nth_some y i ltac:(lia)) as (x & Hx).
    apply Exists_exists. exists (x, t). split; [apply nth_error_In with i; rewrite combine_nth_error, Hx, Ht; reflexivity|]. cbn [fst snd]. destruct (K i x t Hx Ht) as (_ & n & _ & D & N). specialize (N Hi).
    pose proof pi_lo as PL. assert (N1 : 1 <= Rabs (IZR n)) by (rewrite <- abs_IZR; apply (IZR_le 1); lia). assert (SM : bpow radix2 (-37) <= 1) by (cbn; lra).
    assert (EN : Rabs (2 * PI * IZR n) = 2 * PI * Rabs (IZR n)) by (rewrite Rabs_mult, (Rabs_right (2 * PI)) by lra; reflexivity). assert (2 * PI * 1 <= 2 * PI * Rabs (IZR n)) by (apply Rmult_le_compat_l; lra).
    pose proof (Rabs_triang (bval x - bval t) (- (bval x - (bval t + 2 * PI * IZR n)))) as TR'. rewrite Rabs_Ropp in TR'. replace (bval x - bval t + _) with (2 * PI * IZR n) in TR' by ring. lra.
Qed.
(** Within the limits up to rounding, when the configuration was within them. *)
Theorem C118_limits : forall L dot ty (ls us theta y : list b64), Forall sane ls -> Forall sane us -> Forall sane theta ->
  (forall i l u t, nth_error ls i = Some l -> nth_error us i = Some u -> nth_error theta i = Some t -> bval l <= bval t <= bval u) ->
  alternative (A := b64_arith L dot) (g_equiv1 (b64_arith L dot)) ty ls us theta y ->
  forall i l u x, nth_error ls i = Some l -> nth_error us i = Some u -> nth_error y i = Some x -> bval l - bpow radix2 (-39) <= bval x <= bval u + bpow radix2 (-39).
Proof.
  intros L dot ty ls us theta y SL SU ST W (LY & fl & LF & _ & G) i l u x Hl Hu Hx. assert (LF' : @length bool fl = @length b64 theta) by exact LF. assert (EQ : @length b64 y = @length b64 theta) by exact LY.
  assert (LI : (i < length y)%nat) by (apply nth_error_Some; congruence). destruct (nth_some theta i ltac:(lia)) as (t & Ht). destruct (nth_some fl i ltac:(lia)) as (b & Hb). pose proof (W i l u t Hl Hu Ht) as WI. pose proof (G i b t x Hb Ht Hx) as GI.
  assert (E0 : bpow radix2 (-39) = 16384 * uu) by (unfold uu; change 16384 with (bpow radix2 14); rewrite <- bpow_plus; reflexivity). pose proof uu_pos as U. destruct b.
  - destruct GI as (l' & u' & Hl' & Hu' & _ & IX). change (nth_error ls i = Some l') in Hl'. assert (QL : l' = l) by (pose proof (eq_trans (eq_sym Hl) Hl') as Q; injection Q as Q; exact (eq_sym Q)). assert (QU : u' = u) by (pose proof (eq_trans (eq_sym Hu) Hu') as Q; injection Q as Q; exact (eq_sym Q)). subst l' u'. pose proof (sane_nth _ _ _ SL Hl) as Sl. pose proof (sane_nth _ _ _ SU Hu) as Su. pose proof (sane_nth _ _ _ ST Ht) as St.
    destruct (entry_turn L dot l u t x Sl Su St IX) as (F & _). pose proof (C81_limits L dot l u t x WI IX F) as C. destruct Sl as [_ Bl], Su as [_ Bu], St as [_ Bt]. rewrite E0.
    assert (8 * uu * (Rabs (bval t) + Rabs (bval l)) <= 8 * uu * 2048) by (apply Rmult_le_compat_l; lra). assert (8 * uu * (Rabs (bval t) + Rabs (bval u)) <= 8 * uu * 2048) by (apply Rmult_le_compat_l; lra). lra.
  - subst x. pose proof (bpow_ge_0 radix2 (-39)). lra.
Qed.
Lemma build {X} (P : nat -> X -> Prop) : forall n, (forall i, (i < n)%nat -> exists x, P i x) -> exists l, length l = n /\ forall i x, nth_error l i = Some x -> P i x.
Proof.
  induction n as [|n IH]; intros H; [exists []; split; [reflexivity|intros [|i] x E; discriminate]|]. destruct IH as (l & Ll & Pl); [intros i Hi; apply H; lia|]. destruct (H n ltac:(lia)) as (x & Px). exists (l ++ [x]). split; [rewrite app_length, Ll; cbn; lia|].
  intros i z E. destruct (lt_dec i (length l)) as [C|C]; [rewrite nth_error_app1 in E by exact C; exact (Pl i z E)|]. rewrite nth_error_app2 in E by lia. destruct (i - length l)%nat as [|d] eqn:ED; cbn in E; [injection E as <-; replace i with n by lia; exact Px|destruct d; discriminate].
Qed.
Lemma sane_diff a b : sane a -> sane b -> bfin (b_sub a b).
Proof.
  intros [Fa Ba] [Fb Bb]. assert (Rabs (bval a - bval b) <= bpow radix2 11) as BB by (apply Rabs_le_inv in Ba, Bb; change (bpow radix2 11) with 2048; apply Rabs_le; lra). apply (sub_range a b Fa Fb (op_fin 11 _ ltac:(lia) BB)).
Qed.
(** Between limits of that size the turns can be counted, so the call does not fail. *)
Lemma floor_some x : bfin x -> b_floor x (b_mul (b_lit 2 1) b_pi) <> None.
Proof.
  intros F. assert (E : match b_mul (b_lit 2 1) b_pi with B754_finite false _ _ _ => true | _ => false end = true) by (vm_compute; reflexivity). destruct (b_mul (b_lit 2 1) b_pi) as [| | |[] m e B]; try discriminate E. destruct x as [s|s| |s m' e' B']; try discriminate F; discriminate.
Qed.
Theorem C118_counted : forall L dot (ls us theta : list b64), Forall sane ls -> Forall sane us -> Forall sane theta -> counted (b64_arith L dot) ls us theta.
Proof.
  intros L dot ls us theta SL SU ST i l u t Hl Hu Ht. split; apply floor_some; apply sane_diff; [exact (sane_nth _ _ _ SU Hu)|exact (sane_nth _ _ _ ST Ht)|exact (sane_nth _ _ _ ST Ht)|exact (sane_nth _ _ _ SL Hl)].
Qed.
(** Nothing is missed: whole turns of rotary joints that keep within the limits, by a margin for rounding, are found. *)
Theorem C118_complete : forall L dot ty (ls us theta : list b64) (ns : nat -> Z), Forall sane ls -> Forall sane us -> Forall sane theta -> length ls = length theta -> length us = length theta ->
  (exists i, (i < length theta)%nat /\ ns i <> 0%Z) ->
  (forall i l u t, ns i <> 0%Z -> nth_error ls i = Some l -> nth_error us i = Some u -> nth_error theta i = Some t -> nth_error ty i = Some Rotary /\
    bval l + bpow radix2 (-41) <= bval t + 2 * PI * IZR (ns i) <= bval u - bpow radix2 (-41)) ->
  exists y, alternative (A := b64_arith L dot) (g_equiv1 (b64_arith L dot)) ty ls us theta y /\
    forall i t x, nth_error theta i = Some t -> nth_error y i = Some x -> Rabs (bval x - (bval t + 2 * PI * IZR (ns i))) <= bpow radix2 (-39).
Proof.
  intros L dot ty ls us theta ns SL SU ST LL LU (k & Hk & Nk) W. pose proof uu_pos as U. pose proof uu_small as US. pose proof pi_lo as PL.
  assert (E0 : bpow radix2 (-39) = 16384 * uu) by (unfold uu; change 16384 with (bpow radix2 14); rewrite <- bpow_plus; reflexivity). assert (E1 : bpow radix2 (-41) = 4096 * uu) by (unfold uu; change 4096 with (bpow radix2 12); rewrite <- bpow_plus; reflexivity).
  set (Q := fun i (x : b64) => exists t l u, nth_error theta i = Some t /\ nth_error ls i = Some l /\ nth_error us i = Some u /\ (if Z.eqb (ns i) 0 then x = t else nth_error ty i = Some Rotary /\ In x (g_equiv1 (b64_arith L dot) l u t)) /\ Rabs (bval x - (bval t + 2 * PI * IZR (ns i))) <= bpow radix2 (-39)).
  destruct (build Q (length theta)) as (y & Ly & Py).
  { intros i Hi. destruct (nth_some theta i Hi) as (t & Ht). destruct (nth_some ls i ltac:(lia)) as (l & Hl). destruct (nth_some us i ltac:(lia)) as (u & Hu). destruct (Z.eqb_spec (ns i) 0) as [E|E].
    - exists t, t, l, u. rewrite E. cbn [Z.eqb]. repeat (split; [assumption || reflexivity|]). replace (bval t - _) with 0 by ring. rewrite Rabs_R0. apply bpow_ge_0.
    - destruct (W i l u t E Hl Hu Ht) as (HR & B). pose proof (sane_nth _ _ _ SL Hl) as Sl. pose proof (sane_nth _ _ _ SU Hu) as Su. pose proof (sane_nth _ _ _ ST Ht) as St. assert (Sl' := Sl). assert (Su' := Su). assert (St' := St). destruct Sl' as [Fl Bl], Su' as [Fu Bu], St' as [Ft Bt].
      assert (DF : forall a b, sane a -> sane b -> bfin (b_sub a b)).
      { intros a b [Fa Ba] [Fb Bb]. assert (Rabs (bval a - bval b) <= bpow radix2 11) as BB by (apply Rabs_le_inv in Ba, Bb; change (bpow radix2 11) with 2048; apply Rabs_le; lra). apply (sub_range a b Fa Fb (op_fin 11 _ ltac:(lia) BB)). }
      destruct (C81_complete L dot l u t (ns i) E (DF _ _ Su St) (DF _ _ St Sl)) as (x & IX & D).
      { rewrite E1 in B. assert (2 * uu * (Rabs (bval t) + Rabs (bval l)) <= 2 * uu * 2048) by (apply Rmult_le_compat_l; lra). assert (2 * uu * (Rabs (bval t) + Rabs (bval u)) <= 2 * uu * 2048) by (apply Rmult_le_compat_l; lra). lra. }
      destruct (entry_turn L dot l u t x Sl Su St IX) as (F & _). specialize (D F). exists x, t, l, u. rewrite (proj2 (Z.eqb_neq _ _) E). repeat (split; [assumption|]). split; [split; assumption|]. eapply Rle_trans; [exact D|]. rewrite E0, (Rmult_comm 16384). apply Rmult_le_compat_l; [lra|].
      assert (EN : Rabs (2 * PI * IZR (ns i)) = 2 * PI * Rabs (IZR (ns i))) by (rewrite Rabs_mult, (Rabs_right (2 * PI)) by lra; reflexivity). assert (NB : Rabs (2 * PI * IZR (ns i)) <= 2049) by (rewrite E1 in B; apply Rabs_le_inv in Bl, Bu, Bt; apply Rabs_le; lra).
      pose proof (Rabs_pos (IZR (ns i))) as N0. assert (314 / 50 * Rabs (IZR (ns i)) <= 2 * PI * Rabs (IZR (ns i))) by (apply Rmult_le_compat_r; lra). lra. }
  exists y. split.
  - split; [exact Ly|]. exists (map (fun i => negb (Z.eqb (ns i) 0)) (seq 0 (length theta))). split; [rewrite map_length, seq_length; reflexivity|]. split.
    + apply in_map_iff. exists k. split; [rewrite (proj2 (Z.eqb_neq _ _) Nk); reflexivity|]. apply in_seq. lia.
    + intros i b t x Hb Ht0 Hx0. assert (Ht : @nth_error b64 theta i = Some t) by exact Ht0. assert (Hx : @nth_error b64 y i = Some x) by exact Hx0. clear Ht0 Hx0. rewrite nth_error_map in Hb. assert (LI : (i < length theta)%nat) by (apply nth_error_Some; congruence). assert (ES : nth_error (seq 0 (length theta)) i = Some i). { rewrite (nth_error_nth' _ 0%nat) by (rewrite seq_length; exact LI). rewrite seq_nth by exact LI. reflexivity. }
      rewrite ES in Hb. cbn [option_map] in Hb. injection Hb as <-. destruct (Py i x Hx) as (t' & l & u & Ht' & Hl & Hu & C & _). assert (t' = t) by congruence. subst t'. destruct (Z.eqb (ns i) 0); cbn [negb]; [exact C|]. exists l, u. destruct C as [C1 C2]. auto.
  - intros i t x Ht Hx. destruct (Py i x Hx) as (t' & _ & _ & Ht' & _ & _ & _ & D). assert (t' = t) by congruence. subst t'. exact D.
Qed.
(** Where the robot goes. *)
Lemma sway_turn d y ty : 0 <= d -> 0 <= y -> Forall (fun j => turning j = true) ty -> forall P theta theta', Forall2 (fun a b => Rabs (a - b) <= d) theta theta' -> length theta' = length ty ->
  forall m, fold_right (fun p s => norm p + s) 0 P + y <= m -> sway ty P theta theta' y <= INR (length ty) * (d * m) /\ arm_length ty P theta' y <= fold_right (fun p s => norm p + s) 0 P + y.
Proof.
  intros D Y. assert (NP : forall P, 0 <= fold_right (fun p s => norm p + s) 0 P) by (induction P as [|p P IH]; cbn [fold_right]; [lra|pose proof (norm_nonneg p); lra]).
  induction 1 as [|j ty Hj HF IH]; intros P theta theta' F L m MA.
  { cbn. pose proof (NP P). lra. }
  assert (M0 : 0 <= d * m) by (apply Rmult_le_pos; pose proof (NP P); lra). cbn [length]. rewrite S_INR. pose proof (pos_INR (length ty)) as I0. assert (0 <= INR (length ty) * (d * m)) by (apply Rmult_le_pos; lra).
  cbn [sway arm_length]. destruct P as [|p P]; [cbn [fold_right]; split; nra|]. destruct F as [|t t' theta theta' Ht F]; [discriminate|]. injection L as L. rewrite Hj. cbn [fold_right] in *. pose proof (norm_nonneg p) as Np. destruct (IH P theta theta' F L m ltac:(lra)) as [S1 S2].
  split; [|lra]. assert (Rabs (t - t') * (norm p + arm_length ty P theta' y) <= d * m). { apply Rle_trans with (d * (norm p + (fold_right (fun p s => norm p + s) 0 P + y))); [|apply Rmult_le_compat_l; lra]. apply Rle_trans with (Rabs (t - t') * (norm p + (fold_right (fun p s => norm p + s) 0 P + y))); [apply Rmult_le_compat_l; [apply Rabs_pos|lra]|apply Rmult_le_compat_r; [pose proof (NP P); lra|exact Ht]]. }
  lra.
Qed.
Lemma opt_reach T x : rigid_opt T -> norm (act_opt T x) <= norm x + shift_of T.
Proof.
  intros RT. destruct T as [T|]; cbn [act_opt shift_of]; [|lra]. unfold act. eapply Rle_trans; [apply norm_triangle|]. rewrite norm_SO3 by exact RT. lra.
Qed.
Lemma robot_near r d theta theta' M u : wf_robot r -> wf_aux r -> Forall (fun j => turning j = true) (rtype r) -> 0 <= d -> near_turns d (rtype r) theta theta' ->
  fold_right (fun p s => norm p + s) 0 (rP r) + shift_of (tool_transform r) + shift_of (rflange r) + shift_of (rbase r) <= M ->
  norm (vsub (robot_point r theta u) (robot_point r theta' u)) <= INR (length (rtype r)) * (d * (M + norm u)).
Proof.
  intros W WA TT D NT SZ. unfold robot_point. rewrite base_sub by exact WA. set (y := act_opt (rflange r) (act_tool r u)).
  assert (NY : norm y <= norm u + shift_of (tool_transform r) + shift_of (rflange r)).
  { unfold y. eapply Rle_trans; [apply opt_reach, (wf_flange r WA)|]. rewrite <- act_tool_transform. pose proof (opt_reach (tool_transform r) u (rigid_tool r WA)). lra. }
  destruct (near_split d _ _ _ NT (rH r) (tl (rP r)) y) as (L1 & _ & th & L3 & C & F & _). rewrite <- C.
  pose proof (chain_moves (rtype r) (rH r) (tl (rP r)) theta th y (wf_unit r W) (wf_H r W) ltac:(lia) ltac:(lia)) as CM.
  destruct (sway_turn d (norm y) (rtype r) D (norm_nonneg y) TT (tl (rP r)) theta th F L3 (M + norm u)) as [SW _].
  { pose proof (shift_nonneg (rbase r)). destruct (rP r) as [|p P]; cbn [tl fold_right] in *; [lra|pose proof (norm_nonneg p); lra]. }
  eapply Rle_trans; [|eapply Rle_trans; [exact CM|exact SW]]. right. f_equal. la_ring.
Qed.
Theorem C118_pose : forall L bdot M (rf : grobot (b64_arith L bdot)) r (ls us theta y : list b64), In bdot b_dots -> libm_ok L (bpow radix2 (-52)) -> libm_total L ->
  wf_robot r -> wf_aux r -> rtype r = [Rotary; Rotary; Rotary; Rotary; Rotary; Rotary] -> grtype rf = rtype r -> stored_robot L bdot M rf r -> bpow radix2 (-380) <= M <= bpow radix2 380 ->
  fold_right (fun p s => norm p + s) 0 (rP r) + shift_of (tool_transform r) + shift_of (rflange r) + shift_of (rbase r) <= M ->
  Forall sane ls -> Forall sane us -> Forall sane theta -> length theta = 6%nat -> alternative (A := b64_arith L bdot) (g_equiv1 (b64_arith L bdot)) (grtype rf) ls us theta y ->
  exists T T', g_fwdkin (b64_arith L bdot) rf theta true = Ok T /\ g_fwdkin (b64_arith L bdot) rf y true = Ok T' /\ whole T /\ whole T' /\
    forall u, norm (vsub (moved T' u) (moved T u)) <= bpow radix2 (-34) * (M + norm u).
Proof.
  intros L bdot M rf r ls us theta y HD HL HT W WA TY TF SR RM SZ SL SU ST LT AL. assert (LE : length (grtype rf) = length theta) by (rewrite TF, TY, LT; reflexivity).
  destruct (C118_turns L bdot (grtype rf) ls us theta y SL SU ST LE AL) as (FY & NT & _). assert (LY : @length b64 y = 6%nat) by (destruct AL as [LY _]; rewrite <- LT; exact LY).
  assert (FT : Forall bfin theta) by (eapply Forall_impl; [|exact ST]; intros a [Fa _]; exact Fa).
  destruct (C116_fwdkin L bdot M rf r theta true HD HL HT W TY TF SR RM SZ LT FT eq_refl) as (T & ET & WT & DT). destruct (C116_fwdkin L bdot M rf r y true HD HL HT W TY TF SR RM SZ LY FY eq_refl) as (T' & ET' & WT' & DT').
  exists T, T'. repeat (split; [assumption|]). intros u. specialize (DT u). specialize (DT' u). rewrite TF in NT.
  assert (TT : Forall (fun j => turning j = true) (rtype r)) by (rewrite TY; repeat constructor). pose proof (robot_near r (bpow radix2 (-37)) (map bval y) (map bval theta) M u W WA TT (bpow_ge_0 _ _) NT SZ) as RN. rewrite TY in RN. cbn [length] in RN. replace (INR 6) with 6 in RN by (cbn; ring).
  replace (vsub (moved T' u) (moved T u)) with (vadd (vsub (moved T' u) (robot_point r (map bval y) u)) (vadd (vsub (robot_point r (map bval y) u) (robot_point r (map bval theta) u)) (vsub (robot_point r (map bval theta) u) (moved T u)))) by la_ring.
  eapply Rle_trans; [apply norm_triangle|]. pose proof (norm_triangle (vsub (robot_point r (map bval y) u) (robot_point r (map bval theta) u)) (vsub (robot_point r (map bval theta) u) (moved T u))) as T2. rewrite (norm_vsub_sym (robot_point r (map bval theta) u)) in T2.
  replace (bpow radix2 (-34)) with (8 * bpow radix2 (-37)) by (change 8 with (bpow radix2 3); rewrite <- bpow_plus; reflexivity). lra.
Qed.
(** The alternatives of what robot6_sphericalwrist_invkin returned reach the pose too. *)
Lemma unchecked (A : arith) (r : grobot A) theta T : g_fwdkin A r theta false = Ok T -> g_fwdkin A r theta true = Ok T.
Proof. unfold g_fwdkin. destruct (g_check_limits A r theta false); [|discriminate]. cbn [bind g_check_limits]. auto. Qed.
Theorem C118_solutions : forall L (f : b64 -> b64) bdot argsort rf r posef pose lastf sols x1 x2 x3 x4 x5 x6 y ls us M rho h0 h1 h2 h3 h4 h5 p0 p1 p2 p3 p4 p5 p6 R06 v,
  In bdot b_dots -> libm_ok L (bpow radix2 (-52)) -> libm_total L -> libm_arc_ok L (bpow radix2 (-50)) -> libm_angle_ok L (bpow radix2 (-50)) -> libm_asin_ok f (bpow radix2 (-50)) ->
  opw r h0 h1 h2 h3 h4 h5 p0 p1 p2 p3 p4 p5 p6 -> wf_aux r -> stored_robot L bdot M rf r -> grtype rf = rtype r -> six_limits (grlower rf) (grupper rf) -> stored_pose L bdot M posef pose ->
  bpow radix2 (-150) <= M <= bpow radix2 150 -> 1002 / 1000 * extent r pose <= M -> 1 <= rho <= 1000 ->
  g_robot6_invkin (b64_arith L bdot) f b_rem argsort rf posef lastf = Ok sols -> In [x1; x2; x3; x4; x5; x6] sols ->
  M <= rho * norm (perp ey p2) -> M <= rho * norm (perp ey (vadd p3 p4)) -> M <= rho * norm (perp ey (vadd p2 (rotate h2 (bval x3) (vadd p3 p4)))) ->
  wrist_of r pose (vadd p6 p5) R06 v -> 1 <= rho * norm (perp (rotate h0 (bval x1) (rotate h1 (bval x2) (rotate h2 (bval x3) h3))) (mvec R06 h5)) ->
  grlower rf = Some ls -> grupper rf = Some us -> alternative (A := b64_arith L bdot) (g_equiv1 (b64_arith L bdot)) (grtype rf) ls us [x1; x2; x3; x4; x5; x6] y ->
  exists T, g_fwdkin (b64_arith L bdot) rf y true = Ok T /\ whole T /\ forall u, norm (vsub (moved T u) (moved posef u)) <= sqrt_eps + rho * bpow radix2 (-20) * (M + norm u).
Proof.
  intros L f bdot argsort rf r posef pose lastf sols x1 x2 x3 x4 x5 x6 y ls us M rho h0 h1 h2 h3 h4 h5 p0 p1 p2 p3 p4 p5 p6 R06 v HD HL HT HA HG HF O W SR TF SX SP RM EX RR E I LA LB OFF WO OFW EL EU AL.
  assert (MP : 0 < M) by (apply (rg_pos 150); exact RM).
  destruct (C116_back L f bdot argsort rf r posef pose lastf sols x1 x2 x3 x4 x5 x6 M rho h0 h1 h2 h3 h4 h5 p0 p1 p2 p3 p4 p5 p6 R06 v HD HL HT HA HG HF O W SR TF SX SP RM EX RR E I LA LB OFF WO OFW) as (T0 & E0 & W0 & D0). apply unchecked in E0.
  destruct (stored_lengths _ _ _ _ _ SR) as [LH LP]. rewrite (opw_H _ _ _ _ _ _ _ _ _ _ _ _ _ _ O) in LH. rewrite (opw_P _ _ _ _ _ _ _ _ _ _ _ _ _ _ O) in LP.
  destruct (robot6_sane L f bdot argsort rf posef lastf sols _ LH LP (six_limited _ _ SX) E I) as [_ SN]. destruct SX as (ls' & us' & EL' & EU' & _ & _ & SL & SU). assert (QL : ls' = ls) by congruence. assert (QU : us' = us) by congruence. subst ls' us'.
  destruct (C118_pose L bdot M rf r ls us [x1; x2; x3; x4; x5; x6] y HD HL HT (opw_wf _ _ _ _ _ _ _ _ _ _ _ _ _ _ O) W (opw_types _ _ _ _ _ _ _ _ _ _ _ _ _ _ O) TF SR (wider M RM) (sizes r pose M EX MP) SL SU SN eq_refl AL) as (T1 & T' & E1 & E' & _ & W' & D).
  rewrite E0 in E1. injection E1 as <-. exists T'. split; [exact E'|]. split; [exact W'|]. intros u. specialize (D0 u). specialize (D u). pose proof (norm_nonneg u) as NU.
  replace (vsub (moved T' u) (moved posef u)) with (vadd (vsub (moved T' u) (moved T0 u)) (vsub (moved T0 u) (moved posef u))) by la_ring. eapply Rle_trans; [apply norm_triangle|].
  replace (rho * bpow radix2 (-20) * (M + norm u)) with (rho * bpow radix2 (-21) * (M + norm u) + rho * bpow radix2 (-21) * (M + norm u)) by (change (-20)%Z with (-21 + 1)%Z; rewrite bpow_plus; change (bpow radix2 1) with 2; ring).
  assert (bpow radix2 (-34) * (M + norm u) <= rho * bpow radix2 (-21) * (M + norm u)). { apply Rmult_le_compat_r; [lra|]. rewrite <- (Rmult_1_l (bpow radix2 (-34))). apply Rmult_le_compat; [lra|apply bpow_ge_0|lra|apply bpow_le; lia]. }
  lra.
Qed.
(** Not all alternatives are accepted by fwdkin with the limits checked, whatever the order of summation and the math library: one may exceed the upper limit by rounding. *)
Theorem C118_accepts_refuted : exists lower upper theta : b64, forall L bdot argsort (rf : grobot (b64_arith L bdot)), grlower rf = Some [lower] -> grupper rf = Some [upper] -> grtype rf = [Rotary] ->
  g_check_limits (b64_arith L bdot) rf [theta] false = Ok tt /\ exists y, g_equivalent (b64_arith L bdot) argsort rf [[theta]] None = Ok [y] /\ g_fwdkin (b64_arith L bdot) rf y false = Err AssertionError.
Proof.
  exists (b_ofZ (-10)), ex_upper, (b_ofZ (-4)). intros L bdot argsort rf EL EU ET. split.
  { assert (C1 : b_le (b_ofZ (-10)) (b_ofZ (-4)) = true) by (vm_compute; reflexivity). assert (C2 : b_le (b_ofZ (-4)) ex_upper = true) by (vm_compute; reflexivity). unfold g_check_limits. rewrite EL, EU. unfold g_all. cbn [length Nat.eqb combine forallb fst snd nle b64_arith]. rewrite C1. cbn [andb bind assert_]. rewrite C2. reflexivity. }
  exists [b_add (b_ofZ (-4)) (b_mul (b_mul (b_lit 2 1) b_pi) (b_ofZ 1))]. split.
  { assert (Q1 : g_quot (b64_arith L bdot) (nsub (b64_arith L bdot) ex_upper (b_ofZ (-4))) = 1%Z).
    { unfold g_quot. assert (C : b_floor (b_sub ex_upper (b_ofZ (-4))) (b_mul (b_lit 2 1) b_pi) = Some 1%Z) by (vm_compute; reflexivity). change (nfloor (b64_arith L bdot)) with b_floor. change (g_full (b64_arith L bdot)) with (b_mul (b_lit 2 1) b_pi). change (nsub (b64_arith L bdot)) with b_sub. rewrite C. reflexivity. }
    assert (Q2 : g_quot (b64_arith L bdot) (nsub (b64_arith L bdot) (b_ofZ (-4)) (b_ofZ (-10))) = 0%Z).
    { unfold g_quot. assert (C : b_floor (b_sub (b_ofZ (-4)) (b_ofZ (-10))) (b_mul (b_lit 2 1) b_pi) = Some 0%Z) by (vm_compute; reflexivity). change (nfloor (b64_arith L bdot)) with b_floor. change (g_full (b64_arith L bdot)) with (b_mul (b_lit 2 1) b_pi). change (nsub (b64_arith L bdot)) with b_sub. rewrite C. reflexivity. }
    unfold g_equivalent. cbn [flat_map_out]. unfold g_equiv. rewrite EL, EU, ET. cbn [length Nat.eqb andb combine map fst snd]. rewrite Q1, Q2. reflexivity. }
  set (y := b_add (b_ofZ (-4)) (b_mul (b_mul (b_lit 2 1) b_pi) (b_ofZ 1))). assert (C1 : b_le (b_ofZ (-10)) y = true) by (vm_compute; reflexivity). assert (C2 : b_le y ex_upper = false) by (vm_compute; reflexivity).
  unfold g_fwdkin, g_check_limits. rewrite EL, EU. unfold g_all. cbn [length Nat.eqb combine forallb fst snd nle b64_arith]. rewrite C1. cbn [andb bind assert_]. rewrite C2. reflexivity.
Qed.
(** With last_joints the alternatives come nearest first. *)
Theorem C118_nearest : forall L bdot argsort (rf : grobot (b64_arith L bdot)) (ls us last : list b64) thetas res, In bdot b_dots -> sorts_keys argsort ->
  grlower rf = Some ls -> grupper rf = Some us -> Forall (fun x => bfin x /\ Rabs (bval x) <= 1000) ls -> Forall (fun x => bfin x /\ Rabs (bval x) <= 1000) us -> (5 <= length us <= 20)%nat -> length last = length us -> Forall sane last ->
  Forall (Forall sane) thetas -> (forall theta i l u t, In theta thetas -> nth_error ls i = Some l -> nth_error us i = Some u -> nth_error theta i = Some t -> bval l <= bval t <= bval u) ->
  g_equivalent (b64_arith L bdot) argsort rf thetas (Some last) = Ok res -> nearest_first last res.
Proof.
  intros L bdot argsort rf ls us last thetas res HD SO EL EU SL SU LU LL HL ST W E.
  assert (SANE : forall l, Forall (fun x => bfin x /\ Rabs (bval x) <= 1000) l -> Forall sane l) by (intros l; apply Forall_impl; intros a [Fa Ba]; split; [exact Fa|lra]).
  assert (G : forall x, In x res -> length x = length last /\ Forall sane x).
  { intros x I. pose proof (proj1 (C118_list (b64_arith L bdot) argsort rf ls us thetas (Some last) res (fun l => proj1 (SO l)) EL EU E x) I) as (theta & IT & AL).
    unfold g_equivalent in E. apply bind_inv in E. destruct E as (sols & ES & _).
    assert (X : exists ys, g_equiv (b64_arith L bdot) rf theta = Ok ys).
    { clear - ES IT. revert sols ES. induction thetas as [|t thetas IH]; intros sols ES; [destruct IT|]. cbn [flat_map_out] in ES. apply bind_inv in ES. destruct ES as (a & Ea & ES). apply bind_inv in ES. destruct ES as (b & Eb & _).
      destruct IT as [<-|IT]; [exists a; exact Ea|exact (IH IT b Eb)]. }
    destruct X as (ys & EY). destruct (equiv_inv _ rf theta ys EY) as (ls' & us' & EL' & EU' & LU' & LL'). assert (QL : ls' = ls) by congruence. assert (QU : us' = us) by congruence. subst ls' us'.
    assert (LT : @length b64 theta = @length b64 us) by exact LU'. assert (LT' : @length b64 theta = @length b64 ls) by exact LL'. assert (LX : @length b64 x = @length b64 theta) by (destruct AL as [LX _]; exact LX).
    split; [exact (eq_trans LX (eq_trans LT (eq_sym LL)))|]. assert (STT : Forall sane theta) by (apply (proj1 (Forall_forall _ _) ST theta IT)).
    apply Forall_forall. intros a Ia. apply In_nth_error in Ia. destruct Ia as (i & Ha0). assert (Ha : @nth_error b64 x i = Some a) by exact Ha0. clear Ha0. assert (LI : (i < @length b64 x)%nat) by (apply nth_error_Some; congruence).
    destruct (nth_some ls i ltac:(lia)) as (l & Hl). destruct (nth_some us i ltac:(lia)) as (u & Hu). destruct (@nth_some b64 theta i ltac:(lia)) as (t & Ht).
    pose proof (C118_limits L bdot (grtype rf) ls us theta x (SANE _ SL) (SANE _ SU) STT (fun i l u t => W theta i l u t IT) AL i l u a Hl Hu Ha) as B.
    destruct (proj1 (Forall_forall _ _) SL l (nth_error_In _ _ Hl)) as [_ Bl]. destruct (proj1 (Forall_forall _ _) SU u (nth_error_In _ _ Hu)) as [_ Bu]. assert (SM : bpow radix2 (-39) <= 1) by (cbn; lra). apply Rabs_le_inv in Bl, Bu.
    split; [|apply Rabs_le; lra]. destruct AL as (_ & fl & LF & _ & GF). assert (LF' : @length bool fl = @length b64 theta) by exact LF. destruct (nth_some fl i ltac:(lia)) as (b & Hb). pose proof (GF i b t a Hb Ht Ha) as GI. destruct b.
    - destruct GI as (l' & u' & Hl' & Hu' & _ & IX). apply (entry_turn L bdot l' u' t a (sane_nth _ _ _ (SANE _ SL) Hl') (sane_nth _ _ _ (SANE _ SU) Hu') (sane_nth _ _ _ STT Ht) IX).
    - rewrite GI. apply (sane_nth _ _ _ STT Ht). }
  unfold g_equivalent in E. apply bind_inv in E. destruct E as (sols & _ & E). apply (sort_first L bdot argsort last sols res HD SO ltac:(lia) HL E G).
Qed.

(* ---- non-vacuity: the robot of C108_ex with wide limits; the first joint turned forwards and the fifth backwards ---- *)
Definition wide_rf bdot : grobot (b64_arith pin_libm bdot) :=
  GRb (b64_arith pin_libm bdot) (grH (pin_rf bdot)) (grP (pin_rf bdot)) [Rotary; Rotary; Rotary; Rotary; Rotary; Rotary] (Some (map b_ofZ [-8;-8;-8;-8;-8;-8]%Z)) (Some (map b_ofZ [8;8;8;8;8;8]%Z)) (grtool (pin_rf bdot)) None None.
Definition wide_theta : list b64 := map b_ofZ [0;0;0;0;1;0]%Z.
Definition wide_last : list b64 := map b_ofZ [6;0;0;0;-5;0]%Z.
Definition wide_turns (i : nat) : Z := match i with 0%nat => 1%Z | 4%nat => (-1)%Z | _ => 0%Z end.
Lemma wide_small l : Forall (fun z => (-8 <= z <= 8)%Z) l -> Forall (fun x => bfin x /\ Rabs (bval x) <= 1000) (map b_ofZ l).
Proof.
  intros H. induction H as [|z l Hz H IH]; cbn [map]; constructor; [|exact IH]. destruct (pin_int z Hz) as [F V]. split; [exact F|]. rewrite V. apply Rabs_le. assert (IZR (-8) <= IZR z <= IZR 8) by (split; apply IZR_le; lia). lra.
Qed.
Lemma wide_sane l : Forall (fun z => (-8 <= z <= 8)%Z) l -> Forall sane (map b_ofZ l).
Proof. intros H. eapply Forall_impl; [|exact (wide_small l H)]. intros a [Fa Ba]. split; [exact Fa|lra]. Qed.
Lemma stored_again L bdot M (rf rf' : grobot (b64_arith L bdot)) r : stored_robot L bdot M rf r -> grH rf' = grH rf -> grP rf' = grP rf -> grtool rf' = grtool rf -> grflange rf' = grflange rf -> grbase rf' = grbase rf -> stored_robot L bdot M rf' r.
Proof. intros [H P T F B] E1 E2 E3 E4 E5. constructor; rewrite ?E1, ?E2, ?E3, ?E4, ?E5; assumption. Qed.
Lemma pick zs i x : nth_error (map b_ofZ zs) i = Some x -> exists z, nth_error zs i = Some z /\ x = b_ofZ z.
Proof. rewrite nth_error_map. destruct (nth_error zs i) as [z|]; [|discriminate]. cbn [option_map]. intros E. exists z. split; [reflexivity|congruence]. Qed.
Example C118_ex : forall bdot, In bdot b_dots -> exists res y T T',
  g_equivalent (b64_arith pin_libm bdot) in_order (wide_rf bdot) [wide_theta] (Some wide_last) = Ok res /\ nearest_first wide_last res /\ In y res /\
  alternative (A := b64_arith pin_libm bdot) (g_equiv1 (b64_arith pin_libm bdot)) (grtype (wide_rf bdot)) (map b_ofZ [-8;-8;-8;-8;-8;-8]%Z) (map b_ofZ [8;8;8;8;8;8]%Z) wide_theta y /\
  (forall i t x, nth_error wide_theta i = Some t -> nth_error y i = Some x -> Rabs (bval x - (bval t + 2 * PI * IZR (wide_turns i))) <= bpow radix2 (-39)) /\
  g_fwdkin (b64_arith pin_libm bdot) (wide_rf bdot) wide_theta true = Ok T /\ g_fwdkin (b64_arith pin_libm bdot) (wide_rf bdot) y true = Ok T' /\
  forall u, norm (vsub (moved T' u) (moved T u)) <= bpow radix2 (-34) * (32 + norm u).
Proof.
  intros bdot HD. set (ls := map b_ofZ [-8;-8;-8;-8;-8;-8]%Z). set (us := map b_ofZ [8;8;8;8;8;8]%Z).
  assert (SL : Forall (fun x => bfin x /\ Rabs (bval x) <= 1000) ls) by (apply wide_small; repeat (constructor; [lia|]); constructor). assert (SU : Forall (fun x => bfin x /\ Rabs (bval x) <= 1000) us) by (apply wide_small; repeat (constructor; [lia|]); constructor).
  assert (SL' : Forall sane ls) by (apply wide_sane; repeat (constructor; [lia|]); constructor). assert (SU' : Forall sane us) by (apply wide_sane; repeat (constructor; [lia|]); constructor).
  assert (ST : Forall sane wide_theta) by (apply wide_sane; repeat (constructor; [lia|]); constructor). assert (SW : Forall sane wide_last) by (apply wide_sane; repeat (constructor; [lia|]); constructor).
  assert (V : forall z, (-8 <= z <= 8)%Z -> bval (b_ofZ z) = IZR z) by (intros z Hz; apply pin_int; exact Hz). pose proof pi_lo as PL. pose proof pi_hi as PH. assert (SM : bpow radix2 (-41) <= 1 / 100) by (cbn; lra).
  destruct (C118_complete pin_libm bdot (grtype (wide_rf bdot)) ls us wide_theta wide_turns SL' SU' ST eq_refl eq_refl) as (y & AL & NY).
  { exists 0%nat. split; [cbn; lia|discriminate]. }
  { intros i l u t N Hl Hu Ht. unfold ls in Hl. unfold us in Hu. unfold wide_theta in Ht. apply pick in Hl, Hu, Ht. destruct Hl as (zl & Hl & ->). destruct Hu as (zu & Hu & ->). destruct Ht as (zt & Ht & ->). destruct i as [|[|[|[|[|[|i]]]]]]; cbn [wide_turns] in N; try (exfalso; apply N; reflexivity); cbn [nth_error] in Hl, Hu, Ht; injection Hl as <-; injection Hu as <-; injection Ht as <-; (split; [reflexivity|]); rewrite !V by lia; cbn [wide_turns]; lra. }
  destruct (C118_total (b64_arith pin_libm bdot) in_order (wide_rf bdot) ls us [wide_theta] eq_refl eq_refl eq_refl) as (sols & E0 & TOT); [constructor; [reflexivity|constructor]|constructor; [exact (C118_counted pin_libm bdot ls us wide_theta SL' SU' ST)|constructor]|].
  pose proof (fun l => proj1 (in_order_sorts l)) as PE. destruct (TOT wide_last eq_refl PE) as [[Z _]|[_ (res & E)]].
  { exfalso. pose proof (proj2 (C118_list (b64_arith pin_libm bdot) in_order (wide_rf bdot) ls us [wide_theta] None sols PE eq_refl eq_refl E0 y) (ex_intro _ wide_theta (conj (or_introl eq_refl) AL))) as I. rewrite Z in I. destruct I. }
  pose proof (proj2 (C118_list (b64_arith pin_libm bdot) in_order (wide_rf bdot) ls us [wide_theta] (Some wide_last) res PE eq_refl eq_refl E y) (ex_intro _ wide_theta (conj (or_introl eq_refl) AL))) as I.
  destruct pin_opw as [O W]. assert (EX : 1002 / 1000 * extent pin_r pin_goal <= 32) by (pose proof pin_extent; lra). assert (R32 : bpow radix2 (-380) <= 32 <= bpow radix2 380) by (change 32 with (bpow radix2 5); split; apply bpow_le; lia).
  destruct (C118_pose pin_libm bdot 32 (wide_rf bdot) pin_r ls us wide_theta y HD pin_ok pin_total (opw_wf _ _ _ _ _ _ _ _ _ _ _ _ _ _ O) W eq_refl eq_refl (stored_again _ _ _ _ (wide_rf bdot) _ (pin_robot 32 bdot ltac:(lra)) eq_refl eq_refl eq_refl eq_refl eq_refl) R32 (sizes pin_r pin_goal 32 EX ltac:(lra)) SL' SU' ST eq_refl AL) as (T & T' & ET & ET' & _ & _ & D).
  exists res, y, T, T'. split; [exact E|]. split; [|repeat (split; [assumption|]); exact D].
  apply (C118_nearest pin_libm bdot in_order (wide_rf bdot) ls us wide_last [wide_theta] res HD in_order_sorts eq_refl eq_refl SL SU); [cbn; lia|reflexivity|exact SW|constructor; [exact ST|constructor]| |exact E].
  intros theta i l u t [<-|[]] Hl Hu Ht. unfold ls in Hl. unfold us in Hu. unfold wide_theta in Ht. apply pick in Hl, Hu, Ht. destruct Hl as (zl & Hl & ->). destruct Hu as (zu & Hu & ->). destruct Ht as (zt & Ht & ->). destruct i as [|[|[|[|[|[|i]]]]]]; cbn [nth_error] in Hl, Hu, Ht; try (destruct i; discriminate); injection Hl as <-; injection Hu as <-; injection Ht as <-; rewrite !V by lia; lra.
Qed.
(** the same robot with the limits of C108_ex, the sixth joint free to turn further *)
Definition turn_rf bdot : grobot (b64_arith pin_libm bdot) :=
  GRb (b64_arith pin_libm bdot) (grH (pin_rf bdot)) (grP (pin_rf bdot)) [Rotary; Rotary; Rotary; Rotary; Rotary; Rotary] (Some (map b_ofZ [-1;-1;-1;-1;-2;-1]%Z)) (Some (map b_ofZ [1;1;1;1;2;8]%Z)) (grtool (pin_rf bdot)) None None.
Lemma turn_runs bdot : In bdot b_dots -> pin_test (g_robot6_invkin (b64_arith pin_libm bdot) pin_asin b_rem (fun _ => []) (turn_rf bdot) (pin_pose bdot) None) = true.
Proof. intros H. cbn [In b_dots] in H. repeat (destruct H as [<- | H]; [vm_compute; reflexivity|]). contradiction. Qed.
Definition last_turn (i : nat) : Z := match i with 5%nat => 1%Z | _ => 0%Z end.
Example C118_solutions_ex : forall bdot, In bdot b_dots -> exists x y T,
  g_robot6_invkin (b64_arith pin_libm bdot) pin_asin b_rem (fun _ => []) (turn_rf bdot) (pin_pose bdot) None = Ok [x] /\
  alternative (A := b64_arith pin_libm bdot) (g_equiv1 (b64_arith pin_libm bdot)) (grtype (turn_rf bdot)) (map b_ofZ [-1;-1;-1;-1;-2;-1]%Z) (map b_ofZ [1;1;1;1;2;8]%Z) x y /\
  g_fwdkin (b64_arith pin_libm bdot) (turn_rf bdot) y true = Ok T /\
  forall u, norm (vsub (moved T u) (moved (pin_pose bdot) u)) <= sqrt_eps + 11 * bpow radix2 (-20) * (32 + norm u).
Proof.
  intros bdot HD. pose proof (turn_runs bdot HD) as RT.
  destruct (g_robot6_invkin _ _ _ _ _ _ _) as [[|[|x1 [|x2 [|x3 [|x4 [|x5 [|x6 [|]]]]]]] [|]]|] eqn:E; try discriminate RT. exists [x1; x2; x3; x4; x5; x6].
  cbn [pin_test] in RT. rewrite !andb_true_iff in RT. destruct RT as (((((Z1 & Z2) & Z3) & Z4) & Z5) & Z6).
  apply is_num_val in Z1; [|reflexivity]. apply is_num_val in Z2; [|reflexivity]. apply is_num_val in Z3; [|reflexivity]. apply is_num_val in Z4; [|reflexivity]. apply is_num_val in Z5; [|reflexivity]. apply is_num_val in Z6; [|reflexivity].
  destruct Z1 as [F1 V1]. destruct Z2 as [F2 V2]. destruct Z3 as [F3 V3']. destruct Z4 as [F4 V4]. destruct Z5 as [F5 V5]. destruct Z6 as [F6 V6].
  change (bval b_zero) with 0 in *. rewrite half_val in V5. pose proof b_pi_err as PE. pose proof pi_lo as PL. pose proof pi_hi as PH. pose proof uu_small as US.
  assert (SN : Forall sane [x1; x2; x3; x4; x5; x6]).
  { repeat (constructor; [split; [assumption|]; (rewrite V1 || rewrite V2 || rewrite V3' || rewrite V4 || rewrite V5 || rewrite V6); apply Rabs_le; lra|]). constructor. }
  assert (SX : six_limits (grlower (turn_rf bdot)) (grupper (turn_rf bdot))) by (apply ints_six; try reflexivity; repeat (constructor; [lia|]); constructor).
  assert (SL : Forall sane (map b_ofZ [-1;-1;-1;-1;-2;-1]%Z)) by (apply wide_sane; repeat (constructor; [lia|]); constructor). assert (SU : Forall sane (map b_ofZ [1;1;1;1;2;8]%Z)) by (apply wide_sane; repeat (constructor; [lia|]); constructor).
  assert (V : forall z, (-8 <= z <= 8)%Z -> bval (b_ofZ z) = IZR z) by (intros z Hz; apply pin_int; exact Hz). assert (SM : bpow radix2 (-41) <= 1 / 100) by (cbn; lra).
  destruct (C118_complete pin_libm bdot (grtype (turn_rf bdot)) _ _ [x1; x2; x3; x4; x5; x6] last_turn SL SU SN eq_refl eq_refl) as (y & AL & _).
  { exists 5%nat. split; [cbn; lia|discriminate]. }
  { intros i l u t N Hl Hu Ht. apply pick in Hl, Hu. destruct Hl as (zl & Hl & ->). destruct Hu as (zu & Hu & ->). destruct i as [|[|[|[|[|[|i]]]]]]; cbn [last_turn] in N; try (exfalso; apply N; reflexivity). cbn [nth_error] in Hl, Hu, Ht. injection Hl as <-. injection Hu as <-. injection Ht as <-. split; [reflexivity|]. rewrite !V by lia. rewrite V6. cbn [last_turn]. lra. }
  destruct pin_opw as [O W]. assert (R0 : forall k v, rotate k 0 v = v) by (intros; unfold rotate; rewrite sin_0, cos_0; la_ring).
  assert (LE : forall v n, 0 <= n -> n * n <= LinAlg.dot v v -> n <= norm v) by (intros v n P Q; unfold norm, norm2; rewrite <- (sqrt_square n P); apply sqrt_le_1_alt; exact Q).
  destruct (C118_solutions pin_libm pin_asin bdot (fun _ => []) (turn_rf bdot) pin_r (pin_pose bdot) pin_goal None [[x1; x2; x3; x4; x5; x6]] x1 x2 x3 x4 x5 x6 y (map b_ofZ [-1;-1;-1;-1;-2;-1]%Z) (map b_ofZ [1;1;1;1;2;8]%Z) 32 11 ez ey ey ex ey ex ez (V3 1 0 1) (V3 0 0 3) (V3 2 0 0) (V3 2 0 0) ex ez pin_R06 (V3 5 0 5)
      HD pin_ok pin_total pin_arc pin_angle pin_asin_ok O W (stored_again _ _ _ _ (turn_rf bdot) _ (pin_robot 32 bdot ltac:(lra)) eq_refl eq_refl eq_refl eq_refl eq_refl) eq_refl SX (pin_posed 32 bdot ltac:(lra))) as (T & ET & _ & D); try assumption; try reflexivity.
  - change 32 with (bpow radix2 5). split; apply bpow_le; lia.
  - pose proof pin_extent. lra.
  - lra.
  - left; reflexivity.
  - assert (3 <= norm (perp ey (V3 0 0 3))) by (apply LE; [lra|]; unfold perp, ey, vsub, vscale, LinAlg.dot; cbn [vx vy vz]; lra). lra.
  - assert (3 <= norm (perp ey (vadd (V3 2 0 0) (V3 2 0 0)))) by (apply LE; [lra|]; unfold perp, ey, vsub, vadd, vscale, LinAlg.dot; cbn [vx vy vz]; lra). lra.
  - rewrite V3', R0. assert (3 <= norm (perp ey (vadd (V3 0 0 3) (vadd (V3 2 0 0) (V3 2 0 0))))) by (apply LE; [lra|]; unfold perp, ey, vsub, vadd, vscale, LinAlg.dot; cbn [vx vy vz]; lra). lra.
  - intros [x z w]. unfold act, point6, act_tool, pin_goal, pin_R06, ez, ex. cbn. la_ring.
  - rewrite V1, V2, V3', !R0. assert (1 <= norm (perp ex (mvec pin_R06 ex))) by (apply LE; [lra|]; unfold perp, ex, pin_R06, mvec, vsub, vscale, LinAlg.dot; cbn; lra). lra.
  - exists y, T. split; [reflexivity|]. split; [exact AL|]. split; [exact ET|exact D].
Qed.
(** a joint at 0 with limits -10 and infinity: the call fails, although a turn back is possible *)
Example C118_endless_ex : forall L bdot argsort (rf : grobot (b64_arith L bdot)) last, grlower rf = Some [b_ofZ (-10)] -> grupper rf = Some [B754_infinity false] -> grtype rf = [Rotary] ->
  g_equivalent (b64_arith L bdot) argsort rf [[b_ofZ 0]] last = Err ValueError.
Proof.
  intros L bdot argsort rf last EL EU ET. apply (C118_endless (b64_arith L bdot) argsort rf [b_ofZ (-10)] [B754_infinity false] [[b_ofZ 0]] last [b_ofZ 0] 0 (b_ofZ (-10)) (B754_infinity false) (b_ofZ 0)); try assumption; try reflexivity.
  - left. reflexivity.
  - constructor; [reflexivity|constructor].
  - rewrite ET. reflexivity.
  - left. split; [|reflexivity]. exists 1%Z. split; [|lia]. assert (C : b_floor (b_sub (b_ofZ 0) (b_ofZ (-10))) (b_mul (b_lit 2 1) b_pi) = Some 1%Z) by (vm_compute; reflexivity). exact C.
Qed.
Print Assumptions C118_counted.
Print Assumptions C118_endless.
Print Assumptions C118_endless_ex.
Print Assumptions C118_one.
Print Assumptions C118_list.
Print Assumptions C118_total.
Print Assumptions C118_reals.
Print Assumptions C118_turns.
Print Assumptions C118_limits.
Print Assumptions C118_complete.
Print Assumptions C118_pose.
Print Assumptions C118_solutions.
Print Assumptions C118_accepts_refuted.
Print Assumptions C118_nearest.
Print Assumptions C118_ex.
Print Assumptions C118_solutions_ex.
