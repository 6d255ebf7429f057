(** Property C84: robots ur_invkin refuses. *)
From Coq Require Import Reals ZArith List Bool Lia Lra Psatz Classical_Prop.
From Verif Require Import LinAlg RealAux Py FactsReal FactsLinAlg ModelRot SpecRot FactsRot
  ModelTransform ModelRobot ModelKin SpecKin FactsKin FactsJac ModelSub SpecSub FactsSub ModelInvkin SpecInvkin FactsInvkin FactsIkGeo FactsRobot6 FactsIkErr FactsUr.
Import ListNotations.
Open Scope R_scope.

(** The two layouts: the first and the fifth axis are vertical, the others parallel to y. *)
Definition ur_axes (h : vec3) : list vec3 := [V3 0 0 1; h; h; h; V3 0 0 (-1); h].
(** The axes are those of a UR robot, each up to [e] in length and direction. *)
Definition ur_like (e : R) (H : list vec3) : Prop :=
  exists h, (h = V3 0 1 0 \/ h = V3 0 (-1) 0) /\ Forall2 (fun a x => norm (vsub x a) <= e) (ur_axes h) H.

Lemma entry_near a h : a = 0 \/ a = 1 \/ a = -1 -> isclose (1/100000) (1/100000000) a h = true -> Rabs (h - a) <= 11/1000000.
Proof.
  intros A E. apply isclose_iff in E. unfold np_close in E. revert E. unfold Rabs.
  repeat destruct (Rcase_abs _); destruct A as [-> | [-> | ->]]; lra.
Qed.
Lemma norm_le_sq v e : 0 <= e -> dot v v <= e * e -> norm v <= e.
Proof.
  intros He H. rewrite <- (sqrt_square e) by exact He. unfold norm. apply sqrt_le_1_alt. exact H.
Qed.
Lemma entry_le_norm v : Rabs (vx v) <= norm v /\ Rabs (vy v) <= norm v /\ Rabs (vz v) <= norm v.
Proof.
  destruct v as [x y z]. unfold norm, norm2, dot. cbn [vx vy vz].
  assert (A : forall t s, t * t <= s -> Rabs t <= sqrt s).
  { intros t s H. rewrite <- sqrt_Rsqr_abs. apply sqrt_le_1_alt. exact H. }
  pose proof (Rle_0_sqr x). pose proof (Rle_0_sqr y). pose proof (Rle_0_sqr z). unfold Rsqr in *.
  split; [|split]; apply A; lra.
Qed.
Definition axis_entries (a : vec3) : Prop := forall t, t = vx a \/ t = vy a \/ t = vz a -> t = 0 \/ t = 1 \/ t = -1.
Lemma col_near a h : axis_entries a -> col_close a h = true -> norm (vsub h a) <= 1/50000.
Proof.
  intros A E. unfold col_close in E. apply andb_prop in E. destruct E as [E E3]. apply andb_prop in E. destruct E as [E1 E2].
  apply entry_near in E1; [|apply A; auto]. apply entry_near in E2; [|apply A; auto]. apply entry_near in E3; [|apply A; auto].
  apply norm_le_sq; [lra|]. destruct a as [a b c], h as [x y z]. cbn [vx vy vz] in *. unfold vsub, vadd, vneg, dot. cbn [vx vy vz].
  assert (S : forall t, Rabs t <= 11/1000000 -> t * t <= (11/1000000) * (11/1000000)).
  { intros t Ht. rewrite <- (Rabs_right (t * t)) by nra. rewrite Rabs_mult. pose proof (Rabs_pos t). apply Rmult_le_compat; lra. }
  apply S in E1, E2, E3. unfold Rminus in *. lra.
Qed.
Lemma cols_near A H : Forall axis_entries A -> length A = length H -> cols_close A H = Ok true ->
  Forall2 (fun a x => norm (vsub x a) <= 1/50000) A H.
Proof.
  intros FA L. unfold cols_close. rewrite L, Nat.eqb_refl. intros E. injection E as E. revert H L E.
  induction FA as [|a A Ha FA IH]; intros [|h H] L E; try discriminate; constructor.
  - cbn [combine forallb fst snd] in E. apply andb_prop in E. apply col_near; tauto.
  - cbn [combine forallb fst snd] in E. apply andb_prop in E. apply IH; [injection L; auto|tauto].
Qed.
Lemma Forall2_length {A B} {P : A -> B -> Prop} {l l'} : Forall2 P l l' -> length l = length l'.
Proof. induction 1; cbn; congruence. Qed.
Lemma vneg_ey : vneg ey = V3 0 (-1) 0. Proof. unfold vneg, ey. cbn. f_equal; ring. Qed.
Lemma vneg_ez : vneg ez = V3 0 0 (-1). Proof. unfold vneg, ez. cbn. f_equal; ring. Qed.
Lemma minus_eq : ur_minus = ur_axes (V3 0 (-1) 0).
Proof. unfold ur_minus, ur_axes. rewrite vneg_ey, vneg_ez. reflexivity. Qed.
Lemma plus_eq : ur_plus = ur_axes (V3 0 1 0).
Proof. unfold ur_plus, ur_axes. rewrite vneg_ez. reflexivity. Qed.
Lemma ur_axes_entries h : h = V3 0 1 0 \/ h = V3 0 (-1) 0 -> Forall axis_entries (ur_axes h).
Proof.
  intros H. unfold ur_axes. assert (X : axis_entries h) by (destruct H as [-> | ->]; unfold axis_entries; cbn; intuition lra).
  repeat apply Forall_cons; try apply Forall_nil; auto; unfold axis_entries; cbn; intuition lra.
Qed.
Lemma cols_close_six A H : length A = 6%nat -> length H = 6%nat -> exists b, cols_close A H = Ok b.
Proof. intros a b. unfold cols_close. rewrite a, b. cbn [Nat.eqb]. eauto. Qed.

Section Reject.
Context (argsort : list (flt R) -> list nat).
Let ur := ur_invkin argsort.

(** C84.  A robot with six axes that are not those of a UR robot is refused, whatever the pose. *)
Theorem C84_rejects : forall r pose last, length (rH r) = 6%nat -> ~ ur_like (1/50000) (rH r) -> ur r pose last = Err AssertionError.
Proof.
  intros r pose last L N. unfold ur, ur_invkin. cbv zeta.
  destruct (cols_close_six ur_minus (rH r) eq_refl L) as [a Ea]. destruct (cols_close_six ur_plus (rH r) eq_refl L) as [b Eb].
  rewrite Ea, Eb. cbn [bind]. destruct a; [exfalso|destruct b; [exfalso|reflexivity]]; apply N.
  - rewrite minus_eq in Ea. exists (V3 0 (-1) 0). split; auto.
    apply cols_near; auto. apply ur_axes_entries; auto.
  - rewrite plus_eq in Eb. exists (V3 0 1 0). split; auto.
    apply cols_near; auto. apply ur_axes_entries; auto.
Qed.
(** ... and robots with another number of joints are: a single axis is compared with all six. *)
Theorem C84_size : forall r pose last, length (rH r) <> 6%nat ->
  ur r pose last = Err (if Nat.eqb (length (rH r)) 1 then AssertionError else ValueError).
Proof.
  intros r pose last L. unfold ur, ur_invkin. cbv zeta. unfold cols_close.
  change (length ur_minus) with 6%nat. change (length ur_plus) with 6%nat.
  rewrite (proj2 (Nat.eqb_neq 6 (length (rH r)))) by congruence.
  destruct (rH r) as [|h [|h' H]]; [reflexivity| |reflexivity]. cbn [length Nat.eqb bind].
  assert (D : forall m : vec3, (col_close ez h && (col_close m h && (col_close m h && (col_close m h && (col_close (vneg ez) h && (col_close m h && true))))))%bool = false).
  { intros m. destruct (col_close ez h) eqn:E1; [|reflexivity]. destruct (col_close (vneg ez) h) eqn:E2.
    2: { destruct (col_close m h); reflexivity. }
    exfalso. apply col_near in E1; [|unfold axis_entries; cbn; intuition lra]. apply col_near in E2; [|rewrite vneg_ez; unfold axis_entries; cbn; intuition lra].
    destruct (entry_le_norm (vsub h ez)) as (_ & _ & Z1). destruct (entry_le_norm (vsub h (vneg ez))) as (_ & _ & Z2).
    destruct h as [x y z]. cbn in Z1, Z2. revert Z1 Z2. unfold Rabs. repeat destruct (Rcase_abs _); lra. }
  unfold ur_minus, ur_plus. cbn [forallb]. rewrite !D. reflexivity.
Qed.
(** Whatever gets an answer has the right axes. *)
Theorem C84_accepts_only : forall r pose last sols, ur r pose last = Ok sols -> ur_like (1/50000) (rH r).
Proof.
  intros r pose last sols E. apply NNPP. intros N. destruct (Nat.eq_dec (length (rH r)) 6) as [L|L].
  - rewrite (C84_rejects r pose last L N) in E. discriminate.
  - rewrite (C84_size r pose last L) in E. discriminate.
Qed.
End Reject.

(** An elbow robot with a spherical wrist is not a UR robot. *)
Definition elbow_axes : list vec3 := [V3 0 0 1; V3 0 1 0; V3 0 1 0; V3 1 0 0; V3 0 1 0; V3 1 0 0].
Lemma Forall2_tl {A B} {P : A -> B -> Prop} {a b l l'} : Forall2 P (a :: l) (b :: l') -> Forall2 P l l'.
Proof. intros F. now inversion F. Qed.
Example C84_ex : ~ ur_like (1/50000) elbow_axes /\ length elbow_axes = 6%nat /\ Forall unit3 elbow_axes.
Proof.
  split.
  - intros (h & _ & F). unfold ur_axes, elbow_axes in F.
    do 4 (apply Forall2_tl in F). inversion F as [|? ? ? ? N]; subst. clear F.
    destruct (entry_le_norm (vsub (V3 0 1 0) (V3 0 0 (-1)))) as (_ & Y & _). cbn in Y. revert Y. unfold Rabs. destruct (Rcase_abs _); lra.
  - split; [reflexivity|]. repeat apply Forall_cons; try apply Forall_nil; unfold unit3, dot; cbn; ring.
Qed.
Print Assumptions C84_rejects.
Print Assumptions C84_size.
Print Assumptions C84_accepts_only.
