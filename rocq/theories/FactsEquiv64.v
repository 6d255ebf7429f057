(** The loop of equivalent_configurations lists the alternatives, whatever the arithmetic. *)
From Coq Require Import Reals ZArith List Bool Lia.
From Verif Require Import LinAlg RealAux Py ModelRot ModelRobot ModelInvkin FactsIkMut ModelFloat ModelFloat11 ModelFloat14 SpecEquiv64.
Import ListNotations.

Lemma nth_error_set {X} i (v : X) l j : (i < length l)%nat -> nth_error (set_nth i v l) j = if Nat.eqb j i then Some v else nth_error l j.
Proof.
  revert i j. induction l as [|a l IH]; intros i j L; simpl in L; [lia|]. destruct i as [|i]; [destruct j; reflexivity|].
  destruct j as [|j]; [reflexivity|]. change (nth_error (set_nth i v l) j = if Nat.eqb j i then Some v else nth_error l j). apply IH. lia.
Qed.
Lemma nth_error_ext {X} (a : list X) : forall b, (forall i, nth_error a i = nth_error b i) -> a = b.
Proof.
  induction a as [|x a IH]; intros b H.
  - destruct b as [|y b]; [reflexivity|]. specialize (H 0%nat). discriminate H.
  - destruct b as [|y b]; [specialize (H 0%nat); discriminate H|]. pose proof (H 0%nat) as H0. cbn in H0. injection H0 as ->. f_equal. apply IH. intros i. exact (H (S i)).
Qed.
Lemma nth_some {X} (l : list X) i : (i < length l)%nat -> exists x, nth_error l i = Some x.
Proof. intros H. destruct (nth_error l i) as [x|] eqn:E; [exists x; reflexivity|]. apply nth_error_None in E. lia. Qed.
Lemma in_nth {X} (x : X) l : In x l -> exists i, nth_error l i = Some x.
Proof. apply In_nth_error. Qed.

Section Loop.
Context (A : arith).
Notation num := (num A).
Context (ty : list jtype) (lower upper theta : list num).
Context (LL : length lower = length theta) (LU : length upper = length theta).
Notation n := (length theta).
Definition ups : list Z := map (fun p => g_quot A (nsub A (snd p) (fst p))) (combine theta upper).
Definition los : list Z := map (fun p => g_quot A (nsub A (fst p) (snd p))) (combine theta lower).
(** [y] is given by [flags] *)
Definition given (flags : list bool) (y : list num) : Prop :=
  length y = n /\ length flags = n /\ forall i b t x, nth_error flags i = Some b -> nth_error theta i = Some t -> nth_error y i = Some x ->
    if b then exists l u, nth_error lower i = Some l /\ nth_error upper i = Some u /\ nth_error ty i = Some Rotary /\ In x (g_equiv1 A l u t) else x = t.
Definition unset (k : nat) (flags : list bool) : Prop := forall i, (k <= i)%nat -> nth_error flags i <> Some true.
Definition below (k : nat) (y : list num) : Prop := exists flags, In true flags /\ given flags y /\ unset k flags.

Lemma combine_nth_error {X Y} (a : list X) : forall (b : list Y) i, nth_error (combine a b) i = match nth_error a i, nth_error b i with Some x, Some y => Some (x, y) | _, _ => None end.
Proof.
  induction a as [|x a IH]; intros b i; [destruct i; reflexivity|]. destruct b as [|y b]; [destruct i; cbn; [reflexivity|]; destruct (nth_error a i); reflexivity|].
  destruct i as [|i]; [reflexivity|]. exact (IH b i).
Qed.
Lemma ups_nth k t u : nth_error theta k = Some t -> nth_error upper k = Some u -> nth k ups 0%Z = g_quot A (nsub A u t).
Proof. intros Ht Hu. apply nth_error_nth. unfold ups. rewrite nth_error_map, combine_nth_error, Ht, Hu. reflexivity. Qed.
Lemma los_nth k t l : nth_error theta k = Some t -> nth_error lower k = Some l -> nth k los 0%Z = g_quot A (nsub A t l).
Proof. intros Ht Hl. apply nth_error_nth. unfold los. rewrite nth_error_map, combine_nth_error, Ht, Hl. reflexivity. Qed.

(** the entries the two inner loops write for joint k *)
Lemma in_shifts found k op m y : In y (g_shifts A theta found k op m) <->
  exists j base, (j < Z.to_nat m)%nat /\ (In base found \/ base = theta) /\ y = g_change A k (fun x => op x (nmul A (g_full A) (nofZ A (Z.of_nat j + 1)))) base.
Proof.
  unfold g_shifts. rewrite in_flat_map. split.
  - intros (j & Ij & Iy). apply in_seq in Ij. apply in_map_iff in Iy. destruct Iy as (base & <- & IB). apply in_app_or in IB. exists j, base. split; [lia|]. split; [|reflexivity]. destruct IB as [IB|[<-|[]]]; [left; exact IB|right; reflexivity].
  - intros (j & base & Hj & IB & ->). exists j. split; [apply in_seq; lia|]. apply in_map_iff. exists base. split; [reflexivity|]. apply in_or_app. destruct IB as [IB| ->]; [left; exact IB|right; left; reflexivity].
Qed.
Lemma in_equiv1 l u t x : In x (g_equiv1 A l u t) <->
  (exists j, (j < Z.to_nat (g_quot A (nsub A u t)))%nat /\ x = nadd A t (nmul A (g_full A) (nofZ A (Z.of_nat j + 1)))) \/
  (exists j, (j < Z.to_nat (g_quot A (nsub A t l)))%nat /\ x = nsub A t (nmul A (g_full A) (nofZ A (Z.of_nat j + 1)))).
Proof.
  unfold g_equiv1. cbv zeta. rewrite in_app_iff, !in_map_iff.
  assert (Q : forall z, match nfloor A z (g_full A) with Some n => Z.to_nat n | None => 0%nat end = Z.to_nat (g_quot A z)) by (intros z; unfold g_quot; destruct (nfloor A z (g_full A)); reflexivity).
  change (nmul A (nlit A 2 1) (npi A)) with (g_full A). rewrite !Q.
  split; (intros [(j & H1 & H2)|(j & H1 & H2)]; [left|right]; exists j; try (apply in_seq in H2); try (rewrite in_seq); split; try lia; symmetry; assumption || exact H1).
Qed.
(** one joint: from the vectors found before, or theta, with another value for joint k *)
Lemma step_in found k t l u y : (k < n)%nat -> nth_error theta k = Some t -> nth_error lower k = Some l -> nth_error upper k = Some u ->
  (forall b, In b found -> nth_error b k = Some t) ->
  In y (g_equiv_step A theta ty ups los found k) <->
  In y found \/ (nth_error ty k = Some Rotary /\ exists base x, (In base found \/ base = theta) /\ In x (g_equiv1 A l u t) /\ y = set_nth k x base).
Proof.
  intros Hk Ht Hl Hu HF. unfold g_equiv_step. rewrite (ups_nth k t u Ht Hu), (los_nth k t l Ht Hl). cbv zeta.
  assert (CH : forall base f, In base found \/ base = theta -> g_change A k f base = set_nth k (f t) base).
  { intros base f HB. unfold g_change. replace (nth_error base k) with (Some t); [reflexivity|]. symmetry. destruct HB as [HB| ->]; [exact (HF _ HB)|exact Ht]. }
  assert (SH : In y (g_shifts A theta found k (nadd A) (g_quot A (nsub A u t)) ++ g_shifts A theta found k (nsub A) (g_quot A (nsub A t l))) <->
    exists base x, (In base found \/ base = theta) /\ In x (g_equiv1 A l u t) /\ y = set_nth k x base).
  { rewrite in_app_iff, !in_shifts. setoid_rewrite in_equiv1. split.
    - intros [(j & base & Hj & HB & ->)|(j & base & Hj & HB & ->)]; rewrite CH by exact HB; (eexists base, _; split; [exact HB|]; split; [|reflexivity]); [left|right]; exists j; split; [exact Hj|reflexivity|exact Hj|reflexivity].
    - intros (base & x & HB & [(j & Hj & ->)|(j & Hj & ->)] & ->); [left|right]; exists j, base; (split; [exact Hj|]; split; [exact HB|]); rewrite CH by exact HB; reflexivity. }
  destruct (Z.ltb 0 (g_quot A (nsub A u t)) || Z.ltb 0 (g_quot A (nsub A t l)))%bool eqn:E.
  - destruct (nth_error ty k) as [[]|]; try (split; [intros H; left; exact H|intros [H|[H _]]; [exact H|discriminate H]]).
    rewrite in_app_iff, SH. split; [intros [H|H]; [left; exact H|right; split; [reflexivity|exact H]]|intros [H|[_ H]]; [left; exact H|right; exact H]].
  - split; [intros H; left; exact H|]. intros [H|[_ (base & x & _ & IX & _)]]; [exact H|]. exfalso. apply orb_false_elim in E as [E1 E2]. apply Z.ltb_ge in E1, E2. apply in_equiv1 in IX. destruct IX as [(j & Hj & _)|(j & Hj & _)]; lia.
Qed.

Lemma below_entry k y t : below k y -> nth_error theta k = Some t -> nth_error y k = Some t.
Proof.
  intros (fl & _ & (LY & LF & G) & US) Ht. assert (Hk : (k < n)%nat) by (apply nth_error_Some; congruence).
  destruct (nth_some fl k) as (b & Hb); [lia|]. destruct (nth_some y k) as (x & Hx); [lia|]. pose proof (G k b t x Hb Ht Hx) as GX. destruct b; [exfalso; exact (US k (le_n k) Hb)|]. rewrite Hx, GX. reflexivity.
Qed.
Definition no_flags : list bool := repeat false n.
Lemma given_none : given no_flags theta.
Proof.
  split; [reflexivity|]. split; [apply repeat_length|]. intros i b t x Hb Ht Hx. apply nth_error_In, repeat_spec in Hb. subst b. congruence.
Qed.
Lemma given_set fl base k x t l u : given fl base -> (k < n)%nat -> nth_error theta k = Some t -> nth_error lower k = Some l -> nth_error upper k = Some u -> nth_error ty k = Some Rotary -> In x (g_equiv1 A l u t) ->
  given (set_nth k true fl) (set_nth k x base).
Proof.
  intros (LB & LF & G) Hk Ht Hl Hu HR HX. split; [rewrite set_nth_length; exact LB|]. split; [rewrite set_nth_length; exact LF|].
  intros i b t' x' Hb Ht' Hx'. rewrite nth_error_set in Hb by lia. rewrite nth_error_set in Hx' by lia. destruct (Nat.eqb_spec i k) as [->|NE].
  - injection Hb as <-. injection Hx' as <-. rewrite Ht in Ht'. injection Ht' as <-. exists l, u. auto.
  - exact (G i b t' x' Hb Ht' Hx').
Qed.
Lemma given_unset fl y k t : given fl y -> (k < n)%nat -> nth_error theta k = Some t -> given (set_nth k false fl) (set_nth k t y).
Proof.
  intros (LB & LF & G) Hk Ht. split; [rewrite set_nth_length; exact LB|]. split; [rewrite set_nth_length; exact LF|].
  intros i b t' x' Hb Ht' Hx'. rewrite nth_error_set in Hb by lia. rewrite nth_error_set in Hx' by lia. destruct (Nat.eqb_spec i k) as [->|NE].
  - injection Hb as <-. injection Hx' as <-. congruence.
  - exact (G i b t' x' Hb Ht' Hx').
Qed.
Lemma given_all_false fl y : given fl y -> ~ In true fl -> y = theta.
Proof.
  intros (LB & LF & G) NT. apply nth_error_ext. intros i. destruct (Nat.lt_ge_cases i n) as [H|H].
  - destruct (nth_some fl i) as (b & Hb); [lia|]. destruct (nth_some y i) as (x & Hx); [lia|]. destruct (nth_some theta i H) as (t & Ht). pose proof (G i b t x Hb Ht Hx) as GX.
    destruct b; [exfalso; apply NT; exact (nth_error_In _ _ Hb)|]. congruence.
  - rewrite (proj2 (nth_error_None y i)), (proj2 (nth_error_None theta i)) by lia. reflexivity.
Qed.
Lemma step_below found k : (k < n)%nat -> (forall y, In y found <-> below k y) -> forall y, In y (g_equiv_step A theta ty ups los found k) <-> below (S k) y.
Proof.
  intros Hk HI y. destruct (nth_some theta k Hk) as (t & Ht). destruct (nth_some lower k) as (l & Hl); [lia|]. destruct (nth_some upper k) as (u & Hu); [lia|].
  rewrite (step_in found k t l u y Hk Ht Hl Hu) by (intros b IB; apply (below_entry k b t); [apply HI; exact IB|exact Ht]). split.
  - intros [IY|(HR & base & x & IB & IX & ->)].
    + apply HI in IY. destruct IY as (fl & TF & G & US). exists fl. split; [exact TF|]. split; [exact G|]. intros i Hi. apply US. lia.
    + assert (GB : exists fl, given fl base /\ unset k fl).
      { destruct IB as [IB| ->]; [apply HI in IB; destruct IB as (fl & _ & G & US); exists fl; auto|]. exists no_flags. split; [exact given_none|]. intros i _ E. apply nth_error_In, repeat_spec in E. discriminate E. }
      destruct GB as (fl & G & US). exists (set_nth k true fl). assert (LF : (k < length fl)%nat) by (destruct G as (_ & E & _); lia). split; [|split].
      * apply (nth_error_In _ k). rewrite nth_error_set by lia. rewrite Nat.eqb_refl. reflexivity.
      * apply (given_set fl base k x t l u); assumption.
      * intros i Hi. rewrite nth_error_set by lia. destruct (Nat.eqb_spec i k); [lia|]. apply US. lia.
  - intros (fl & TF & G & US). pose proof G as (LY & LF & GG). destruct (nth_some fl k) as (b & Hb); [lia|]. destruct b.
    + right. destruct (nth_some y k) as (x & Hx); [lia|]. destruct (GG k true t x Hb Ht Hx) as (l' & u' & Hl' & Hu' & HR & IX). rewrite Hl in Hl'. injection Hl' as <-. rewrite Hu in Hu'. injection Hu' as <-.
      split; [exact HR|]. exists (set_nth k t y), x. split; [|split; [exact IX|]].
      * pose proof (given_unset fl y k t G Hk Ht) as GB. assert (US' : unset k (set_nth k false fl)) by (intros i Hi; rewrite nth_error_set by lia; destruct (Nat.eqb_spec i k); [discriminate|apply US; lia]).
        destruct (in_dec Bool.bool_dec true (set_nth k false fl)) as [TB|NB]; [left; apply HI; exists (set_nth k false fl); auto|right; exact (given_all_false _ _ GB NB)].
      * apply nth_error_ext. intros i. rewrite nth_error_set by (rewrite set_nth_length; lia). destruct (Nat.eqb_spec i k) as [->|NE]; [exact Hx|]. rewrite nth_error_set by lia. destruct (Nat.eqb_spec i k); [contradiction|reflexivity].
    + left. apply HI. exists fl. split; [exact TF|]. split; [exact G|]. intros i Hi. destruct (Nat.eq_dec i k) as [->|NE]; [rewrite Hb; discriminate|apply US; lia].
Qed.
Lemma loop_below : forall m k found, (k + m = n)%nat -> (forall y, In y found <-> below k y) -> forall y, In y (fold_left (g_equiv_step A theta ty ups los) (seq k m) found) <-> below n y.
Proof.
  induction m as [|m IH]; intros k found Hk HI y; cbn [seq fold_left].
  - rewrite HI. replace k with n by lia. reflexivity.
  - apply IH; [lia|]. apply step_below; [lia|exact HI].
Qed.
Lemma loop_all y : In y (fold_left (g_equiv_step A theta ty ups los) (seq 0 n) []) <-> alternative (g_equiv1 A) ty lower upper theta y.
Proof.
  rewrite (loop_below n 0 []); [|reflexivity|].
  - split.
    + intros (fl & TF & (LY & LF & G) & _). split; [exact LY|]. exists fl. auto.
    + intros (LY & fl & LF & TF & G). exists fl. split; [exact TF|]. split; [split; [exact LY|split; [exact LF|exact G]]|]. intros i Hi E. assert (i < length fl)%nat by (apply nth_error_Some; congruence). lia.
  - intros z. split; [intros []|]. intros (fl & TF & _ & US). apply in_nth in TF. destruct TF as (i & Hi). exact (US i (Nat.le_0_l i) Hi).
Qed.
End Loop.
