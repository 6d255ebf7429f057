(** Dot products of binary64 with at most two products that are not zero, whatever the order of summation. *)
From Coq Require Import Reals ZArith List Bool Lra Lia Psatz.
From Flocq Require Import Core.Core Mult_error Plus_error IEEE754.BinarySingleNaN.
From Verif Require Import LinAlg RealAux ModelFloat SpecRound FactsRound FactsB64 FactsExact FactsTrack.
Import ListNotations.
Open Scope R_scope.

Notation cap := (bpow radix2 998).
Lemma rnd_idem s : rnd (rnd s) = rnd s. Proof. apply rnd_exact, rnd_fmt. Qed.
(** [x] is the rounded sum [s] of [n] exact products *)
Definition part (n : nat) (s : R) (x : b64) : Prop := bfin x /\ bval x = rnd s /\ (n = 0%nat -> s = 0) /\ (n = 1%nat -> rnd s = s) /\ Rabs s <= INR n * cap.
Definition term (n : nat) (s : R) (a b : b64) : Prop := bfin a /\ bfin b /\ bval a * bval b = s /\ rnd s = s /\ (n = 0%nat -> s = 0) /\ (n <= 1)%nat /\ Rabs s <= INR n * cap.
Lemma small_sum n s : (n <= 2)%nat -> Rabs s <= INR n * cap -> Rabs s <= bpow radix2 999.
Proof. intros N H. eapply Rle_trans; [exact H|]. replace (bpow radix2 999) with (2 * cap) by (change 2 with (bpow radix2 1); rewrite <- bpow_plus; reflexivity). apply Rmult_le_compat_r; [apply bpow_ge_0|]. apply (le_INR n 2 N). Qed.
Lemma merge n m s t : (n + m <= 2)%nat -> (n = 0%nat -> s = 0) -> (n = 1%nat -> rnd s = s) -> (m = 0%nat -> t = 0) -> (m = 1%nat -> rnd t = t) -> rnd (rnd s + rnd t) = rnd (s + t) /\ ((n + m)%nat = 1%nat -> rnd (s + t) = s + t).
Proof.
  intros NM N0 N1 M0 M1. destruct n as [|[|n]].
  - rewrite (N0 eq_refl), rnd_0, !Rplus_0_l. split; [apply rnd_idem|]. intros E. apply M1. lia.
  - destruct m as [|[|m]]; [|rewrite (N1 eq_refl), (M1 eq_refl); split; [reflexivity|lia]|lia]. rewrite (M0 eq_refl), rnd_0, !Rplus_0_r. split; [apply rnd_idem|]. intros _. exact (N1 eq_refl).
  - assert (m = 0%nat) by lia. subst m. rewrite (M0 eq_refl), rnd_0, !Rplus_0_r. split; [apply rnd_idem|lia].
Qed.
Lemma sum_cap n m s t : Rabs s <= INR n * cap -> Rabs t <= INR m * cap -> Rabs (s + t) <= INR (n + m) * cap.
Proof. intros H1 H2. rewrite plus_INR, Rmult_plus_distr_r. eapply Rle_trans; [apply Rabs_triang|lra]. Qed.
Lemma part_add n m s t x y : (n + m <= 2)%nat -> part n s x -> part m t y -> part (n + m) (s + t) (b_add x y).
Proof.
  intros NM (Fx & Vx & N0 & N1 & Bs) (Fy & Vy & M0 & M1 & Bt). destruct (merge n m s t NM N0 N1 M0 M1) as [E E1]. pose proof (sum_cap n m s t Bs Bt) as B.
  destruct (add_range x y Fx Fy) as [F V]. { rewrite Vx, Vy, E. apply in_range. eapply Rle_trans; [exact (small_sum _ _ NM B)|]. apply bpow_le. lia. }
  split; [exact F|]. split; [rewrite V, Vx, Vy; exact E|]. split; [intros Z; rewrite N0, M0 by lia; ring|]. split; [exact E1|exact B].
Qed.
Lemma part_mul n s a b : term n s a b -> part n s (b_mul a b).
Proof.
  intros (Fa & Fb & E & X & N0 & N1 & B). destruct (mul_range a b Fa Fb) as [F V]. { rewrite E. apply in_range. eapply Rle_trans; [exact (small_sum n s ltac:(lia) B)|]. apply bpow_le. lia. }
  split; [exact F|]. split; [rewrite V, E; reflexivity|]. split; [exact N0|]. split; [intros _; exact X|exact B].
Qed.
Lemma part_fma n m s t a b z : (n + m <= 2)%nat -> term n s a b -> part m t z -> part (n + m) (s + t) (b_fma a b z).
Proof.
  intros NM (Fa & Fb & E & X & N0 & N1 & Bs) (Fz & Vz & M0 & M1 & Bt). destruct (merge n m s t NM N0 (fun _ => X) M0 M1) as [EQ E1]. rewrite X in EQ. pose proof (sum_cap n m s t Bs Bt) as B.
  destruct (fma_range a b z Fa Fb Fz) as [F V]. { rewrite E, Vz, EQ. apply in_range. eapply Rle_trans; [exact (small_sum _ _ NM B)|]. apply bpow_le. lia. }
  split; [exact F|]. split; [rewrite V, E, Vz; exact EQ|]. split; [intros Z; rewrite N0, M0 by lia; ring|]. split; [exact E1|exact B].
Qed.
Definition count (ts : list (nat * R)) : nat := fold_right (fun t n => (fst t + n)%nat) 0%nat ts.
Definition total (ts : list (nat * R)) : R := fold_right (fun t s => snd t + s) 0 ts.
Definition tagged : list (b64 * b64) -> list (nat * R) -> Prop := Forall2 (fun p t => term (fst t) (snd t) (fst p) (snd p)).
Lemma part_eq n m s t x : part n s x -> n = m -> s = t -> part m t x. Proof. intros H -> ->. exact H. Qed.
Lemma fold_seq ps ts : tagged ps ts -> forall m t acc, part m t acc -> (m + count ts <= 2)%nat -> part (m + count ts) (t + total ts) (fold_left (fun s p => b_add s (b_mul (fst p) (snd p))) ps acc).
Proof.
  induction 1 as [|p [n s] ps ts Hp H IH]; intros m t acc PA C; cbn [fold_left count total fold_right fst snd] in *; [eapply part_eq; [exact PA|lia|ring]|].
  fold (count ts) in *. fold (total ts) in *. eapply part_eq; [apply (IH (m + n)%nat (t + s)); [apply part_add; [lia|exact PA|apply part_mul; exact Hp]|lia]|lia|ring].
Qed.
Lemma fold_fma ps ts : tagged ps ts -> forall m t acc, part m t acc -> (m + count ts <= 2)%nat -> part (m + count ts) (t + total ts) (fold_left (fun s p => b_fma (fst p) (snd p) s) ps acc).
Proof.
  induction 1 as [|p [n s] ps ts Hp H IH]; intros m t acc PA C; cbn [fold_left count total fold_right fst snd] in *; [eapply part_eq; [exact PA|lia|ring]|].
  fold (count ts) in *. fold (total ts) in *. eapply part_eq; [apply (IH (n + m)%nat (s + t)); [apply part_fma; [lia|exact Hp|exact PA]|lia]|lia|ring].
Qed.
Lemma count_app a b : count (a ++ b) = (count a + count b)%nat. Proof. induction a as [|x a IH]; cbn [app count fold_right]; [reflexivity|]. fold (count (a ++ b)). fold (count a). lia. Qed.
Lemma total_app a b : total (a ++ b) = total a + total b. Proof. induction a as [|x a IH]; [change (total b = 0 + total b); ring|]. change (snd x + total (a ++ b) = snd x + total a + total b). lra. Qed.
Lemma tagged_rev ps ts : tagged ps ts -> tagged (rev ps) (rev ts) /\ count (rev ts) = count ts /\ total (rev ts) = total ts.
Proof.
  induction 1 as [|p t ps ts Hp H (IH & C & T)]; [split; [constructor|split; reflexivity]|]. cbn [rev]. rewrite count_app, total_app, C, T. cbn [count total fold_right]. fold (count ts). fold (total ts). split; [|split; [lia|ring]].
  apply Forall2_app; [exact IH|]. constructor; [exact Hp|constructor].
Qed.
Lemma part_zero : part 0 0 b_zero.
Proof. split; [reflexivity|]. split; [rewrite rnd_0; reflexivity|]. split; [reflexivity|]. split; [discriminate|]. rewrite Rabs_R0. cbn. lra. Qed.
(** the sum of six products, at most two of them not zero *)
Lemma dot_part dot a b ts : In dot b_dots -> length (combine a b) = 6%nat -> tagged (combine a b) ts -> (count ts <= 2)%nat -> part (count ts) (total ts) (dot a b).
Proof.
  intros HD L6 HT C. assert (S : part (count ts) (total ts) (sum_seq (combine a b))) by (eapply part_eq; [exact (fold_seq _ _ HT 0%nat 0 b_zero part_zero C)|lia|ring]).
  destruct (tagged_rev _ _ HT) as (HR & CR & TR). cbn [In b_dots] in HD. repeat destruct HD as [<-|HD]; try contradiction.
  - exact S.
  - eapply part_eq; [exact (fold_fma _ _ HT 0%nat 0 b_zero part_zero C)|lia|ring].
  - eapply part_eq; [exact (fold_seq _ _ HR 0%nat 0 b_zero part_zero ltac:(lia))|lia|rewrite TR; ring].
  - eapply part_eq; [exact (fold_fma _ _ HR 0%nat 0 b_zero part_zero ltac:(lia))|lia|rewrite TR; ring].
  - unfold sum_pairs. destruct (combine a b) as [|? [|? [|? [|? [|]]]]]; try exact S; discriminate L6.
  - unfold sum_lanes. destruct (combine a b) as [|? [|? [|? [|? [|]]]]]; try exact S; discriminate L6.
Qed.
(** the products that occur *)
Lemma term_0l x y : bfin x -> bval x = 0 -> bfin y -> term 0 0 x y.
Proof. intros Fx V Fy. split; [exact Fx|]. split; [exact Fy|]. split; [rewrite V; ring|]. split; [apply rnd_0|]. split; [reflexivity|]. split; [lia|]. rewrite Rabs_R0. cbn. lra. Qed.
Lemma term_0r x y : bfin x -> bfin y -> bval y = 0 -> term 0 0 x y.
Proof. intros Fx Fy V. split; [exact Fx|]. split; [exact Fy|]. split; [rewrite V; ring|]. split; [apply rnd_0|]. split; [reflexivity|]. split; [lia|]. rewrite Rabs_R0. cbn. lra. Qed.
Lemma term_1l x y : bfin x -> bval x = 1 -> bfin y -> Rabs (bval y) <= cap -> term 1 (bval y) x y.
Proof. intros Fx V Fy B. split; [exact Fx|]. split; [exact Fy|]. split; [rewrite V; ring|]. split; [apply rnd_exact, fmt_bval|]. split; [discriminate|]. split; [lia|]. cbn [INR]. lra. Qed.
Lemma term_1r x y : bfin x -> bfin y -> bval y = 1 -> Rabs (bval x) <= cap -> term 1 (bval x) x y.
Proof. intros Fx Fy V B. split; [exact Fx|]. split; [exact Fy|]. split; [rewrite V; ring|]. split; [apply rnd_exact, fmt_bval|]. split; [discriminate|]. split; [lia|]. cbn [INR]. lra. Qed.

(** twice a number, halved *)
Lemma fmt_double x : b_fmt (2 * bval x).
Proof. rewrite Rmult_comm. change 2 with (bpow radix2 1). apply mult_bpow_pos_exact_FLT; [apply fmt_bval|lia]. Qed.
Lemma double_half x : (bfin x -> Rabs (bval x) < bpow radix2 1023) -> b_div (b_add x x) (b_lit 2 1) = x.
Proof.
  intros H. destruct x as [s|s| |s m e B]; [destruct s; vm_compute; reflexivity|destruct s; vm_compute; reflexivity|vm_compute; reflexivity|]. set (x := B754_finite s m e B). specialize (H eq_refl). change (B754_finite s m e B) with x in H. assert (F : bfin x) by reflexivity.
  assert (E2 : rnd (bval x + bval x) = 2 * bval x) by (replace (bval x + bval x) with (2 * bval x) by ring; apply rnd_exact, fmt_double).
  destruct (add_range x x F F) as [FA VA]. { rewrite E2. apply Rlt_bool_true. rewrite Rabs_mult, (Rabs_right 2) by lra. replace (bpow radix2 1024) with (2 * bpow radix2 1023) by (change 2 with (bpow radix2 1); rewrite <- bpow_plus; reflexivity). lra. }
  rewrite E2 in VA. assert (V2 : bval (b_lit 2 1) = 2) by (vm_compute; lra). assert (EX : bval (b_add x x) / bval (b_lit 2 1) = bval x) by (rewrite VA, V2; field).
  destruct (div_range (b_add x x) (b_lit 2 1) FA ltac:(rewrite V2; lra)) as [FD VD]. { apply (in_range_exact x). exact EX. }
  rewrite EX, (rnd_exact _ (fmt_bval x)) in VD. assert (NZ : bval x <> 0). { unfold bval, x, B2R. apply F2R_neq_0. cbn. destruct s; discriminate. }
  apply B2R_inj; [|reflexivity|exact VD]. unfold bval in VD, NZ. unfold bfin in FD. destruct (b_div (b_add x x) (b_lit 2 1)) as [s'|s'| |s' m' e' B']; try discriminate FD; [|reflexivity]. exfalso. apply NZ. rewrite <- VD. reflexivity.
Qed.
Lemma sub_opp x : b_sub x (Bopp x) = b_add x x.
Proof. unfold b_sub, b_add. destruct x as [[]|[]| |s m e B]; try reflexivity. cbn [Bopp]. unfold Bminus, Bplus. rewrite negb_involutive. reflexivity. Qed.
(** half of a number that is zero or not too small *)
Lemma half_exact x : bfin x -> bval x = 0 \/ bpow radix2 (-1021) <= Rabs (bval x) -> isv (b_mul (b_lit 1 2) x) (1 / 2 * bval x).
Proof.
  intros F H. assert (VH : bval (b_lit 1 2) = 1 / 2) by (vm_compute; lra). assert (FM : b_fmt (1 / 2 * bval x)).
  { destruct H as [->|H]; [rewrite Rmult_0_r; apply generic_format_0|]. rewrite Rmult_comm. replace (1 / 2) with (bpow radix2 (-1)) by (cbn; lra). apply mult_bpow_exact_FLT; [apply fmt_bval|]. pose proof (mag_ge_bpow radix2 (bval x) (-1020) H). lia. }
  destruct (mul_range (b_lit 1 2) x eq_refl F) as [FV VV]. { rewrite VH, (rnd_exact _ FM). apply Rlt_bool_true. eapply Rle_lt_trans; [|apply (abs_B2R_lt_emax 53 1024 x)]. fold (bval x). rewrite Rabs_mult, (Rabs_right (1 / 2)) by lra. pose proof (Rabs_pos (bval x)). lra. }
  split; [exact FV|]. rewrite VV, VH. apply rnd_exact. exact FM.
Qed.

(* ---- the error of a dot product of six ---- *)
Lemma six : ((1 + uu) * (1 + uu)) ^ 6 - 1 <= 13 * uu /\ growE 6 0 <= 20 * ee.
Proof.
  pose proof uu_pos as P. pose proof uu_small as Q. pose proof ee_pos as P'.
  assert (U2 : uu * uu <= uu * (1 / 1000000)) by (apply Rmult_le_compat_l; lra). assert (U0 : 0 <= uu * uu) by nra.
  assert (V : (1 + uu) * (1 + uu) <= 1 + 2.001 * uu) by lra. assert (V0 : 0 <= (1 + uu) * (1 + uu)) by nra.
  assert (C3 : ((1 + uu) * (1 + uu)) ^ 3 <= 1 + 6.01 * uu). { eapply Rle_trans; [apply pow_incr; split; [exact V0|exact V]|]. cbn [pow]. set (e := uu * uu) in *. assert (uu * e <= uu * (1 / 1000000)) by (apply Rmult_le_compat_l; [lra|]; nra). assert (E3 : (1 + 2.001 * uu) * ((1 + 2.001 * uu) * ((1 + 2.001 * uu) * 1)) = 1 + 3 * 2.001 * uu + 3 * (2.001 * 2.001) * e + 2.001 * 2.001 * 2.001 * (uu * e)) by (unfold e; ring). rewrite E3. lra. }
  split.
  - replace (((1 + uu) * (1 + uu)) ^ 6) with (((1 + uu) * (1 + uu)) ^ 3 * ((1 + uu) * (1 + uu)) ^ 3) by ring. assert (0 <= ((1 + uu) * (1 + uu)) ^ 3) by (apply pow_le; exact V0).
    apply Rle_trans with ((1 + 6.01 * uu) * (1 + 6.01 * uu) - 1); [apply Rplus_le_compat_r; apply Rmult_le_compat; assumption|]. replace ((1 + 6.01 * uu) * (1 + 6.01 * uu)) with (1 + 2 * 6.01 * uu + 6.01 * 6.01 * (uu * uu)) by ring. lra.
  - cbn [growE]. assert (S : forall x c, 0 <= x -> x <= c * ee -> 0 <= c <= 19 -> 0 <= (1 + uu) * (x + 3 * ee) /\ (1 + uu) * (x + 3 * ee) <= (c + 3.1) * ee).
    { intros x c X0 X1 C. split; [apply Rmult_le_pos; lra|]. apply Rle_trans with ((1 + uu) * (c * ee + 3 * ee)); [apply Rmult_le_compat_l; lra|]. replace ((1 + uu) * (c * ee + 3 * ee)) with ((c + 3 + uu * (c + 3)) * ee) by ring. apply Rmult_le_compat_r; [lra|]. nra. }
    destruct (S 0 0 ltac:(lra) ltac:(lra) ltac:(lra)) as [A1 B1]. destruct (S _ _ A1 B1 ltac:(lra)) as [A2 B2]. destruct (S _ _ A2 B2 ltac:(lra)) as [A3 B3]. destruct (S _ _ A3 B3 ltac:(lra)) as [A4 B4]. destruct (S _ _ A4 B4 ltac:(lra)) as [A5 B5]. destruct (S _ _ A5 B5 ltac:(lra)) as [A6 B6]. lra.
Qed.
Lemma pairs_app a b : dot_pairs (a ++ b) = dot_pairs a + dot_pairs b /\ abs_pairs (a ++ b) = abs_pairs a + abs_pairs b.
Proof. induction a as [|x a [I1 I2]]; [split; [change (dot_pairs b = 0 + dot_pairs b)|change (abs_pairs b = 0 + abs_pairs b)]; ring|]. split; [change (bval (fst x) * bval (snd x) + dot_pairs (a ++ b) = bval (fst x) * bval (snd x) + dot_pairs a + dot_pairs b)|change (Rabs (bval (fst x) * bval (snd x)) + abs_pairs (a ++ b) = Rabs (bval (fst x) * bval (snd x)) + abs_pairs a + abs_pairs b)]; lra. Qed.
Lemma pairs_rev l : dot_pairs (rev l) = dot_pairs l /\ abs_pairs (rev l) = abs_pairs l.
Proof. induction l as [|x l [I1 I2]]; [split; reflexivity|]. cbn [rev]. destruct (pairs_app (rev l) [x]) as [E1 E2]. rewrite E1, E2, I1, I2. cbn [dot_pairs abs_pairs fold_right]. fold (dot_pairs l). fold (abs_pairs l). split; ring. Qed.
Lemma dot6 dot x y : In dot b_dots -> length (combine x y) = 6%nat -> bfin (dot x y) -> fin_pairs (combine x y) /\ Rabs (bval (dot x y) - dot_pairs (combine x y)) <= 13 * uu * abs_pairs (combine x y) + 20 * ee.
Proof.
  intros HD L6. set (l := combine x y) in *. destruct six as [S1 S2].
  assert (K : forall s k, k = l \/ k = rev l -> fin_pairs k /\ acc (((1 + uu) * (1 + uu)) ^ length k) (growE (length k) 0) s (dot_pairs k) (abs_pairs k) -> fin_pairs l /\ Rabs (bval s - dot_pairs l) <= 13 * uu * abs_pairs l + 20 * ee).
  { intros s k Ek [Fk (_ & Hs & Hd)]. destruct (pairs_rev l) as [R1 R2]. assert (Len : length k = 6%nat) by (destruct Ek as [-> | ->]; rewrite ?rev_length; exact L6). rewrite Len in Hs. replace (dot_pairs k) with (dot_pairs l) in * by (destruct Ek as [-> | ->]; congruence). replace (abs_pairs k) with (abs_pairs l) in * by (destruct Ek as [-> | ->]; congruence).
    split; [destruct Ek as [-> | ->]; [exact Fk|]; rewrite <- (rev_involutive l); apply Forall_rev; exact Fk|]. assert (0 <= abs_pairs l) by (pose proof (Rabs_pos (dot_pairs l)); lra). pose proof (Rmult_le_compat_r _ _ _ H S1). lra. }
  assert (E5 : sum_pairs l = sum_seq l) by (destruct l as [|? [|? [|? [|? [|]]]]]; try reflexivity; discriminate L6). assert (E6 : sum_lanes l = sum_seq l) by (destruct l as [|? [|? [|? [|? [|]]]]]; try reflexivity; discriminate L6).
  cbn [In b_dots] in HD. repeat destruct HD as [<-|HD]; try contradiction; fold l; rewrite ?E5, ?E6; intros F.
  - exact (K _ l (or_introl eq_refl) (sum_seq_acc l F)).
  - exact (K _ l (or_introl eq_refl) (sum_fma_acc l F)).
  - exact (K _ (rev l) (or_intror eq_refl) (sum_seq_acc (rev l) F)).
  - exact (K _ (rev l) (or_intror eq_refl) (sum_fma_acc (rev l) F)).
  - exact (K _ l (or_introl eq_refl) (sum_seq_acc l F)).
  - exact (K _ l (or_introl eq_refl) (sum_seq_acc l F)).
Qed.
