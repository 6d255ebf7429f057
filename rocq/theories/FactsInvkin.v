(** Facts about joint normalisation, candidate lists and sorting. *)
From Coq Require Import Reals ZArith List Bool Lia Lra Sorting.Permutation Sorting.Sorted.
From Verif Require Import LinAlg RealAux Py FactsReal ModelRot ModelTransform ModelRobot ModelKin ModelSub ModelInvkin
  SpecRot SpecKin SpecSub SpecInvkin FactsJac.
Import ListNotations.
Open Scope R_scope.

Lemma inside_true l u x : inside l u x = true <-> l < x < u.
Proof. unfold inside. rewrite andb_true_iff, !Rltb_true. tauto. Qed.
Lemma index_ok {A} (l : list A) i x : index l i = Ok x <-> nth_error l i = Some x.
Proof. unfold index. destruct (nth_error l i); split; intros E; inversion E; auto. Qed.
Lemma index_lt {A} (l : list A) i : (i < length l)%nat -> exists x, index l i = Ok x.
Proof. intros L. apply nth_error_Some in L. unfold index. destruct (nth_error l i); [eauto|congruence]. Qed.

(** *** The number of turns to the last joint value *)
Lemma turns_to_spec last theta : let d := last - (theta + 2 * PI * IZR (turns_to last theta)) in - PI < d <= PI.
Proof.
  intro d. unfold d, turns_to, remainder, floor_div. pose proof PI_pos as PP.
  pose proof (floor_bounds ((last - theta) / (2 * PI))) as [A B].
  set (n := Int_part ((last - theta) / (2 * PI))) in *.
  assert (E : last - theta = 2 * PI * ((last - theta) / (2 * PI))) by (field; lra).
  assert (A' : 2 * PI * IZR n <= last - theta) by (rewrite E; apply Rmult_le_compat_l; lra).
  assert (B' : last - theta < 2 * PI * (IZR n + 1)) by (rewrite E; apply Rmult_lt_compat_l; lra).
  rcase (Rltb PI (last - theta - 2 * PI * IZR n)).
  - rewrite plus_IZR. lra.
  - lra.
Qed.

Lemma in_countdown n m : In m (countdown n) <-> (exists i : nat, (Z.of_nat i <= Z.abs n)%Z /\ m = (Z.sgn n * Z.of_nat i)%Z).
Proof.
  unfold countdown. rewrite in_map_iff. split.
  - intros (i & E & I). rewrite <- in_rev, in_seq in I. exists i. split; auto. lia.
  - intros (i & L & E). exists i. split; auto. rewrite <- in_rev, in_seq. lia.
Qed.
Lemma countdown_sorted n : StronglySorted (fun a b => (Z.abs b < Z.abs a)%Z) (countdown n) \/ n = 0%Z.
Proof.
  destruct (Z.eq_dec n 0) as [E|N]; auto. left. unfold countdown.
  assert (G : forall k, StronglySorted (fun a b => (Z.abs b < Z.abs a)%Z) (map (fun i => (Z.sgn n * Z.of_nat i)%Z) (rev (seq 0 k)))).
  { induction k. constructor. rewrite seq_S, rev_app_distr. simpl. constructor; auto.
    apply Forall_forall. intros x I. apply in_map_iff in I as (i & <- & I). rewrite <- in_rev, in_seq in I.
    rewrite !Z.abs_mul. replace (Z.abs (Z.sgn n)) with 1%Z by lia. lia. }
  apply G.
Qed.

(** The first element of the filtered list *)
Lemma filter_first {A} (f : A -> bool) (Rel : A -> A -> Prop) l x r : StronglySorted Rel l -> filter f l = x :: r ->
  f x = true /\ In x l /\ forall y, In y l -> f y = true -> y = x \/ Rel x y.
Proof.
  intros S. induction S as [|a l S IH F]; simpl; intros E. discriminate.
  destruct (f a) eqn:Fa.
  - inversion E; subst. split; auto. split; auto. intros y [->|I] Fy; auto. right. rewrite Forall_forall in F. auto.
  - destruct (IH E) as (X & I & M). split; auto. split; auto. intros y [->|J] Fy. congruence. auto.
Qed.
Lemma filter_map {A B} (f : A -> B) (p : B -> bool) l : filter p (map f l) = map f (filter (fun x => p (f x)) l).
Proof. induction l; simpl; auto. destruct (p (f a)); simpl; rewrite IHl; auto. Qed.

(** The limit interval read by normalize *)
Definition lims (z : normalizer) (j : nat) (lu : option (R * R)) : Prop :=
  match nlimits z, lu with
  | None, None => True
  | Some (ls, us), Some (l, u) => nth_error ls j = Some l /\ nth_error us j = Some u
  | _, _ => False
  end.
Definition in_lims (lu : option (R * R)) (x : R) : Prop := match lu with None => True | Some (l, u) => l < x < u end.
Definition lims_len (z : normalizer) (n : nat) : Prop :=
  (forall ls us, nlimits z = Some (ls, us) -> length ls = n /\ length us = n) /\
  (forall l, nlast z = Some l -> length l = n).
Lemma lims_total z n j : lims_len z n -> (j < n)%nat -> exists lu, lims z j lu.
Proof.
  intros [A _] L. unfold lims. destruct (nlimits z) as [[ls us]|].
  - destruct (A ls us eq_refl) as [B C].
    destruct (nth_error ls j) as [l|] eqn:E; [|apply nth_error_None in E; lia].
    destruct (nth_error us j) as [u|] eqn:F; [|apply nth_error_None in F; lia].
    exists (Some (l, u)). auto.
  - exists None. auto.
Qed.

(** The start value: theta or a neighbour turn strictly inside. *)
Definition start_of (lu : option (R * R)) (theta : R) : option R :=
  match lu with
  | None => Some theta
  | Some (l, u) =>
      if inside l u theta then Some theta
      else if inside l u (-2 * PI + theta) then Some (theta + -2 * PI)
      else if inside l u (2 * PI + theta) then Some (theta + 2 * PI)
      else None
  end.
Lemma start_some lu theta x : start_of lu theta = Some x -> in_lims lu x /\ (x = theta \/ x = theta - 2 * PI \/ x = theta + 2 * PI).
Proof.
  unfold start_of. destruct lu as [[l u]|]; simpl.
  - destruct (inside l u theta) eqn:A; [intros E; inversion E; subst; apply inside_true in A; auto|].
    destruct (inside l u (-2 * PI + theta)) eqn:B; [intros E; inversion E; subst; apply inside_true in B; split; [lra|right; left; lra]|].
    destruct (inside l u (2 * PI + theta)) eqn:C; [intros E; inversion E; subst; apply inside_true in C; split; [lra|auto]|].
    discriminate.
  - intros E; inversion E; auto.
Qed.
Lemma start_none lu theta : start_of lu theta = None <-> ~ in_lims lu theta /\ ~ in_lims lu (theta - 2 * PI) /\ ~ in_lims lu (theta + 2 * PI).
Proof.
  unfold start_of. destruct lu as [[l u]|]; simpl.
  - destruct (inside l u theta) eqn:A; [split; [discriminate|]; apply inside_true in A; tauto|].
    destruct (inside l u (-2 * PI + theta)) eqn:B; [split; [discriminate|]; apply inside_true in B; intros (_ & C & _); exfalso; apply C; lra|].
    destruct (inside l u (2 * PI + theta)) eqn:C; [split; [discriminate|]; apply inside_true in C; intros (_ & _ & D); exfalso; apply D; lra|].
    split; auto. intros _. repeat split; intro D.
    + apply inside_true in D. congruence.
    + assert (F : l < -2 * PI + theta < u) by lra. apply inside_true in F. congruence.
    + assert (F : l < 2 * PI + theta < u) by lra. apply inside_true in F. congruence.
  - split; [discriminate|tauto].
Qed.

Lemma normalize_start z j theta lu : lims z j lu ->
  normalize z j theta =
  match start_of lu theta with
  | None => Ok None
  | Some theta =>
      match nlast z with
      | None => Ok (Some theta)
      | Some last =>
          let* lj := index last j in
          let n := turns_to lj theta in
          if Z.eqb n 0 then Ok (Some theta)
          else match lu with
               | None => Ok (Some (theta + 2 * PI * IZR n))
               | Some (l, u) =>
                   match filter (inside l u) (map (fun m => theta + 2 * PI * IZR m) (countdown n)) with
                   | x :: _ => Ok (Some x)
                   | [] => Err IndexError
                   end
               end
      end
  end.
Proof.
  unfold lims, normalize, start_of. destruct (nlimits z) as [[ls us]|]; destruct lu as [[l u]|]; try tauto.
  intros [A B]. apply index_ok in A. apply index_ok in B. rewrite A, B. reflexivity.
Qed.

(** What normalize does, in one statement *)
Lemma normalize_spec z j theta lu : lims z j lu ->
  (forall l, nlast z = Some l -> (j < length l)%nat) ->
  (normalize z j theta = Ok None /\ ~ in_lims lu theta /\ ~ in_lims lu (theta - 2 * PI) /\ ~ in_lims lu (theta + 2 * PI)) \/
  (exists x, normalize z j theta = Ok (Some x) /\ ang_eq x theta /\ in_lims lu x /\
     (nlast z = None -> x = theta \/ x = theta - 2 * PI \/ x = theta + 2 * PI) /\
     (forall l lj, nlast z = Some l -> nth_error l j = Some lj ->
        forall y, ang_eq y theta -> in_lims lu y -> Rabs (x - lj) <= Rabs (y - lj))).
Proof.
  intros L Hl. rewrite (normalize_start z j theta lu L). pose proof PI_pos as PP.
  destruct (start_of lu theta) as [x|] eqn:S.
  2:{ left. split; auto. apply start_none; auto. }
  right. apply start_some in S as [Ix Ex].
  assert (AE : ang_eq x theta).
  { destruct Ex as [-> | [-> | -> ]]; [apply ang_eq_refl|exists (-1)%Z; lra|exists 1%Z; lra]. }
  destruct (nlast z) as [last|] eqn:NL.
  2:{ exists x. repeat split; auto. discriminate. }
  destruct (index_lt last j (Hl _ eq_refl)) as [lj E]. rewrite E. cbn [bind]. cbv zeta.
  assert (LJ : forall l lj', Some last = Some l -> nth_error l j = Some lj' -> lj' = lj).
  { intros l lj' El N. inversion El; subst. apply index_ok in E. congruence. }
  pose proof (turns_to_spec lj x) as T. cbv zeta in T. set (n := turns_to lj x) in *.
  (* the nearest of all equivalents *)
  assert (NEAR : forall y, ang_eq y theta -> Rabs (x + 2 * PI * IZR n - lj) <= Rabs (y - lj)).
  { intros y Ay. assert (Ay' : ang_eq y (x + 2 * PI * IZR n)).
    { apply ang_eq_trans with theta; auto. apply ang_eq_sym. destruct AE as [a ->]. exists (a + n)%Z. rewrite plus_IZR. ring. }
    destruct Ay' as [m ->]. destruct (Z.eq_dec m 0) as [->|M]. { rewrite Rmult_0_r, Rplus_0_r. lra. }
    assert (IZR m <= -1 \/ 1 <= IZR m) as [Q|Q].
    { destruct (Z_lt_ge_dec m 0); [left; apply (IZR_le m (-1)); lia|right; apply (IZR_le 1); lia]. }
    - rewrite (Rabs_left1 (x + 2 * PI * IZR n + 2 * PI * IZR m - lj)) by nra.
      apply Rabs_le. nra.
    - rewrite (Rabs_right (x + 2 * PI * IZR n + 2 * PI * IZR m - lj)) by nra.
      apply Rabs_le. nra. }
  destruct (Z.eqb_spec n 0) as [N|N].
  { exists x. split; auto. split; auto. split; auto. split; [discriminate|].
    intros l lj' El Ej y Ay Iy. rewrite (LJ l lj' El Ej). specialize (NEAR y Ay). rewrite N, Rmult_0_r, Rplus_0_r in NEAR. auto. }
  destruct lu as [[l u]|].
  2:{ exists (x + 2 * PI * IZR n). split; auto. split. { destruct AE as [a ->]. exists (a + n)%Z. rewrite plus_IZR. ring. }
      split; [exact I|]. split; [discriminate|]. intros l lj' El Ej y Ay Iy. rewrite (LJ l lj' El Ej). auto. }
  simpl in Ix. rewrite filter_map.
  destruct (filter (fun m => inside l u (x + 2 * PI * IZR m)) (countdown n)) as [|m r] eqn:F.
  { exfalso. assert (I0 : In 0%Z (filter (fun m => inside l u (x + 2 * PI * IZR m)) (countdown n))).
    { apply filter_In. split. apply in_countdown. exists 0%nat. split; lia. apply inside_true. lra. }
    rewrite F in I0. destruct I0. }
  simpl. exists (x + 2 * PI * IZR m).
  destruct (countdown_sorted n) as [CS|C0]; [|congruence].
  destruct (filter_first _ _ _ _ _ CS F) as (Fm & Im & First). apply inside_true in Fm.
  split; auto. split. { destruct AE as [a ->]. exists (a + m)%Z. rewrite plus_IZR. ring. }
  split; auto. split; [discriminate|].
  intros l0 lj' El Ej y Ay Iy. rewrite (LJ l0 lj' El Ej). clear l0 lj' El Ej.
  assert (Ay' : ang_eq y x) by (apply ang_eq_trans with theta; auto using ang_eq_sym).
  destruct Ay' as [k ->]. simpl in Iy.
  apply in_countdown in Im as (i & Li & Mi).
  destruct (Z_lt_ge_dec (Z.abs k) (Z.abs n)) as [K1|K1].
  - destruct (Z_lt_ge_dec (Z.sgn n * k) 0) as [K2|K2].
    + (* on the other side of theta *)
      destruct (Z_lt_ge_dec n 0) as [Q|Q].
      * assert (Z.sgn n = -1)%Z by lia. rewrite H in *.
        assert (1 <= IZR k) by (apply (IZR_le 1); lia). assert (IZR n <= IZR m <= 0) by (split; [apply IZR_le|apply (IZR_le _ 0)]; lia).
        assert (-1 <= IZR m - IZR m <= 0) by lra.
        rewrite (Rabs_right (x + 2 * PI * IZR k - lj)); [|assert (IZR n <= -1) by (apply (IZR_le n (-1)); lia); nra].
        apply Rabs_le. assert (IZR n <= -1) by (apply (IZR_le n (-1)); lia). split; nra.
      * assert (Z.sgn n = 1)%Z by lia. rewrite H in *.
        assert (IZR k <= -1) by (apply (IZR_le k (-1)); lia). assert (0 <= IZR m <= IZR n) by (split; [apply (IZR_le 0)|apply IZR_le]; lia).
        assert (1 <= IZR n) by (apply (IZR_le 1 n); lia).
        rewrite (Rabs_left1 (x + 2 * PI * IZR k - lj)) by nra.
        apply Rabs_le. split; nra.
    + (* between: k is in the list *)
      assert (Ik : In k (countdown n)).
      { apply in_countdown. exists (Z.to_nat (Z.abs k)). split. lia. rewrite Z2Nat.id by lia. lia. }
      destruct (First k Ik) as [->|G]; [apply inside_true; auto|lra|].
      destruct (Z_lt_ge_dec n 0) as [Q|Q].
      * assert (Z.sgn n = -1)%Z by lia. rewrite H in *.
        assert (IZR m + 1 <= IZR k) by (rewrite <- plus_IZR; apply IZR_le; lia). assert (IZR n <= IZR m) by (apply IZR_le; lia).
        rewrite (Rabs_right (x + 2 * PI * IZR k - lj)) by nra. apply Rabs_le; split; nra.
      * assert (Z.sgn n = 1)%Z by lia. rewrite H in *.
        assert (IZR k + 1 <= IZR m) by (rewrite <- plus_IZR; apply IZR_le; lia). assert (IZR m <= IZR n) by (apply IZR_le; lia).
        rewrite (Rabs_left1 (x + 2 * PI * IZR k - lj)) by nra. apply Rabs_le; split; nra.
  - (* at or beyond n: then n itself is inside, so m = n *)
    destruct (Z_lt_ge_dec (Z.sgn n * k) 0) as [K2|K2].
    + destruct (Z_lt_ge_dec n 0) as [Q|Q].
      * assert (Z.sgn n = -1)%Z by lia. rewrite H in *.
        assert (1 <= IZR k) by (apply (IZR_le 1); lia). assert (IZR n <= IZR m <= 0) by (split; [apply IZR_le|apply (IZR_le _ 0)]; lia).
        assert (IZR n <= -1) by (apply (IZR_le n (-1)); lia).
        rewrite (Rabs_right (x + 2 * PI * IZR k - lj)) by nra. apply Rabs_le. split; nra.
      * assert (Z.sgn n = 1)%Z by lia. rewrite H in *.
        assert (IZR k <= -1) by (apply (IZR_le k (-1)); lia). assert (0 <= IZR m <= IZR n) by (split; [apply (IZR_le 0)|apply IZR_le]; lia).
        assert (1 <= IZR n) by (apply (IZR_le 1 n); lia).
        rewrite (Rabs_left1 (x + 2 * PI * IZR k - lj)) by nra. apply Rabs_le. split; nra.
    + assert (In n (countdown n)) as In_n.
      { apply in_countdown. exists (Z.to_nat (Z.abs n)). split. lia. rewrite Z2Nat.id by lia. lia. }
      assert (Fn : l < x + 2 * PI * IZR n < u).
      { destruct (Z_lt_ge_dec n 0) as [Q|Q].
        - assert (Z.sgn n = -1)%Z by lia. rewrite H in *. assert (IZR k <= IZR n <= 0) by (split; [apply IZR_le|apply (IZR_le _ 0)]; lia). nra.
        - assert (Z.sgn n = 1)%Z by lia. rewrite H in *. assert (0 <= IZR n <= IZR k) by (split; [apply (IZR_le 0)|apply IZR_le]; lia). nra. }
      destruct (First n In_n) as [<-|G]; [apply inside_true; auto| |lia].
      apply NEAR. destruct AE as [a ->]. exists (a + k)%Z. rewrite plus_IZR. ring.
Qed.

(** *** Loops *)
Lemma flat_map_out_in {A B} (f : A -> out (list B)) l res : flat_map_out f l = Ok res ->
  forall y, In y res <-> exists x ys, In x l /\ f x = Ok ys /\ In y ys.
Proof.
  revert res. induction l as [|a l IH]; simpl; intros res E y.
  - inversion E; subst. split; [intros []|intros (x & _ & [] & _)].
  - destruct (f a) as [ys|] eqn:F; [|discriminate]. cbn [bind] in E.
    destruct (flat_map_out f l) as [zs|] eqn:G; [|discriminate]. inversion E; subst. rewrite in_app_iff, (IH zs eq_refl y). split.
    + intros [I|(x & ys' & I & Fx & J)]; [exists a, ys|exists x, ys']; auto.
    + intros (x & ys' & [<-|I] & Fx & J); [left; congruence|right; exists x, ys'; auto].
Qed.
Lemma flat_map_out_ok {A B} (f : A -> out (list B)) l res : flat_map_out f l = Ok res -> forall x, In x l -> exists ys, f x = Ok ys.
Proof.
  revert res. induction l as [|a l IH]; simpl; intros res E x I. destruct I.
  destruct (f a) as [ys|] eqn:F; [|discriminate]. cbn [bind] in E.
  destruct (flat_map_out f l) as [zs|] eqn:G; [|discriminate]. destruct I as [<-|I]; eauto.
Qed.
Lemma flat_map_out_total {A B} (f : A -> out (list B)) l : (forall x, In x l -> exists ys, f x = Ok ys) -> exists res, flat_map_out f l = Ok res.
Proof.
  induction l as [|a l IH]; simpl; intros H. eauto. destruct (H a) as [ys ->]; auto. destruct IH as [zs ->]; auto. simpl. eauto.
Qed.
Lemma flat_map_out_nil {A B} (f : A -> out (list B)) l : (forall x, In x l -> f x = Ok []) -> flat_map_out f l = Ok [].
Proof. induction l as [|a l IH]; simpl; intros H; auto. rewrite (H a), IH; auto. Qed.
Lemma flat_map_out_err {A B} (f : A -> out (list B)) l e : flat_map_out f l = Err e -> exists x, In x l /\ f x = Err e.
Proof.
  induction l as [|a l IH]; simpl; intros E. discriminate. destruct (f a) as [ys|e'] eqn:F; cbn [bind] in E.
  - destruct (flat_map_out f l) as [zs|e'']; [discriminate|]. inversion E; subst. destruct IH as (x & I & G); auto. eauto.
  - inversion E; subst. exists a. auto.
Qed.
(** if an item raises, the loop raises *)
Lemma flat_map_out_raises {A B} (f : A -> out (list B)) l x e : In x l -> f x = Err e -> exists e', flat_map_out f l = Err e'.
Proof.
  intros I F. destruct (flat_map_out f l) as [res|e'] eqn:E; eauto. destruct (flat_map_out_ok f l res E x I) as [ys G]. congruence.
Qed.
Lemma filter_out_in {A} (f : A -> out (option A)) l res : filter_out f l = Ok res ->
  forall y, In y res <-> exists x, In x l /\ f x = Ok (Some y).
Proof.
  revert res. induction l as [|a l IH]; simpl; intros res E y.
  - inversion E; subst. split; [intros []|intros (x & [] & _)].
  - destruct (f a) as [o|] eqn:F; [|discriminate]. cbn [bind] in E.
    destruct (filter_out f l) as [zs|] eqn:G; [|discriminate]. inversion E; subst. destruct o as [v|]; simpl; rewrite (IH zs eq_refl y).
    + split. intros [<-|(x & I & Fx)]; eauto. intros (x & [<-|I] & Fx); [left; congruence|eauto].
    + split. intros (x & I & Fx); eauto. intros (x & [<-|I] & Fx); [congruence|eauto].
Qed.
Lemma filter_out_total {A} (f : A -> out (option A)) l : (forall x, In x l -> exists o, f x = Ok o) -> exists res, filter_out f l = Ok res.
Proof.
  induction l as [|a l IH]; simpl; intros H. eauto. destruct (H a) as [ys ->]; auto. destruct IH as [zs ->]; auto. simpl. eauto.
Qed.
Lemma filter_out_ok {A} (f : A -> out (option A)) l res : filter_out f l = Ok res -> forall x, In x l -> exists o, f x = Ok o.
Proof.
  revert res. induction l as [|a l IH]; simpl; intros res E x I. destruct I.
  destruct (f a) as [ys|] eqn:F; [|discriminate]. cbn [bind] in E.
  destruct (filter_out f l) as [zs|] eqn:G; [|discriminate]. destruct I as [<-|I]; eauto.
Qed.
Lemma filter_out_err {A} (f : A -> out (option A)) l e : filter_out f l = Err e -> exists x, In x l /\ f x = Err e.
Proof.
  induction l as [|a l IH]; simpl; intros E. discriminate. destruct (f a) as [ys|e'] eqn:F; cbn [bind] in E.
  - destruct (filter_out f l) as [zs|e'']; [discriminate|]. inversion E; subst. destruct IH as (x & I & G); auto. eauto.
  - inversion E; subst. exists a. auto.
Qed.
Lemma map_out_Forall2 {A B} (f : A -> out B) l res : map_out f l = Ok res <-> Forall2 (fun x y => f x = Ok y) l res.
Proof.
  revert res. induction l as [|a l IH]; simpl; intros res; split; intros E.
  - inversion E; constructor.
  - inversion E; auto.
  - destruct (f a) as [y|] eqn:F; [|discriminate]. cbn [bind] in E. destruct (map_out f l) as [ys|] eqn:G; [|discriminate].
    inversion E; subst. constructor; auto. apply IH; auto.
  - inversion E as [|x y l' ys Fx Fl]; subst. rewrite Fx. apply IH in Fl. rewrite Fl. reflexivity.
Qed.

(** *** argsort *)
Section Argsort.
Context (argsort : list (flt R) -> list nat) (SP : argsort_spec argsort).
Lemma map_index_argsort {A} (l : list A) ds : length ds = length l ->
  exists res, map_out (index l) (argsort ds) = Ok res /\ Forall2 (fun i x => nth_error l i = Some x) (argsort ds) res.
Proof.
  intros L. destruct (SP ds) as [P _].
  assert (G : forall is, (forall i, In i is -> (i < length l)%nat) -> exists res, map_out (index l) is = Ok res /\ Forall2 (fun i x => nth_error l i = Some x) is res).
  { induction is as [|i is IH]; intros H; simpl. exists []. auto.
    destruct (index_lt l i) as [x E]. apply H; simpl; auto. destruct IH as (res & Er & F). intros; apply H; simpl; auto.
    rewrite E, Er. simpl. exists (x :: res). split; auto. constructor; auto. apply index_ok; auto. }
  apply G. intros i I. apply (Permutation_in _ P) in I. apply in_seq in I. lia.
Qed.
Lemma nth_seq_map {A} (l : list A) : Forall2 (fun i x => nth_error l i = Some x) (seq 0 (length l)) l.
Proof.
  assert (G : forall pre suf, l = pre ++ suf -> Forall2 (fun i x => nth_error l i = Some x) (seq (length pre) (length suf)) suf).
  { intros pre suf. revert pre. induction suf as [|x suf IH]; intros pre E; simpl; constructor.
    - rewrite E, nth_error_app2, Nat.sub_diag by auto. reflexivity.
    - specialize (IH (pre ++ [x])). rewrite app_length in IH. simpl in IH. rewrite Nat.add_1_r in IH. apply IH. rewrite <- app_assoc. auto. }
  apply (G []). auto.
Qed.
Lemma Forall2_perm {A B} (Rel : A -> B -> Prop) l1 l2 : Permutation l1 l2 -> forall m1, Forall2 Rel l1 m1 ->
  exists m2, Forall2 Rel l2 m2 /\ Permutation m1 m2.
Proof.
  induction 1; intros m1 F.
  - inversion F; subst. exists []. auto.
  - inversion F; subst. destruct (IHPermutation _ H4) as (m2 & F2 & P2). exists (y :: m2). auto.
  - inversion F as [|? ? ? ? R1 F1]; subst. inversion F1; subst. exists (y1 :: y0 :: l'0). split; auto. constructor.
  - destruct (IHPermutation1 _ F) as (m2 & F2 & P2). destruct (IHPermutation2 _ F2) as (m3 & F3 & P3). exists m3. split; auto. eapply Permutation_trans; eauto.
Qed.
Lemma Forall2_fun {A B} (Rel : A -> B -> Prop) l : (forall a b c, Rel a b -> Rel a c -> b = c) -> forall m1 m2, Forall2 Rel l m1 -> Forall2 Rel l m2 -> m1 = m2.
Proof.
  intros Fn. induction l; intros m1 m2 F1 F2; inversion F1; inversion F2; subst; auto. f_equal; eauto.
Qed.
(** reading a list through argsort of its distances: a permutation, sorted *)
Lemma sorted_by {A} (d : A -> R) (l : list A) :
  exists res, map_out (index l) (argsort (map (fun x => Fin (d x)) l)) = Ok res /\ Permutation res l /\ nearest_first d res.
Proof.
  destruct (map_index_argsort l (map (fun x => Fin (d x)) l)) as (res & E & F). { rewrite map_length; auto. }
  destruct (SP (map (fun x => Fin (d x)) l)) as [P S]. rewrite map_length in P.
  exists res. split; auto. split.
  - destruct (Forall2_perm _ _ _ P res F) as (m2 & F2 & P2).
    assert (m2 = l) as ->; auto. refine (Forall2_fun _ _ _ _ _ F2 (nth_seq_map l)). intros; congruence.
  - clear E P. revert S. generalize dependent res. generalize (argsort (map (fun x => Fin (d x)) l)).
    induction l0 as [|i is IH]; intros res F S; inversion F as [|? x ? xs Hi Fs]; subst. constructor.
    simpl in S. inversion S as [|? ? S' Fa]; subst. constructor. apply IH; auto.
    apply Forall_forall. intros y Iy. 
    assert (exists j, In j is /\ nth_error l j = Some y) as (j & Ij & Ej).
    { clear - Fs Iy. induction Fs. destruct Iy. destruct Iy as [<-|I]. exists x; simpl; auto. destruct IHFs as (j & A1 & B1); auto. exists j; simpl; auto. }
    rewrite Forall_forall in Fa. specialize (Fa (nth j (map (fun x => Fin (d x)) l) NaN)).
    assert (N : forall k z, nth_error l k = Some z -> nth k (map (fun x => Fin (d x)) l) NaN = Fin (d z)).
    { intros k z Ek. apply nth_error_nth. rewrite nth_error_map, Ek. reflexivity. }
    rewrite (N _ _ Hi), (N _ _ Ej) in Fa. apply Fa. rewrite <- (N _ _ Ej). apply (in_map (fun i => nth i (map (fun x => Fin (d x)) l) NaN)). auto.
Qed.

(** *** Candidate lists *)
Lemma candidates_no_last {A} z norm dist near (theta : list A) : nlast z = None ->
  candidates argsort z norm dist near theta = filter_out norm theta.
Proof. intros E. unfold candidates. rewrite E. destruct (filter_out norm theta); reflexivity. Qed.
Lemma candidates_incl {A} z norm dist near (theta : list A) res :
  candidates argsort z norm dist near theta = Ok res ->
  exists normed, filter_out norm theta = Ok normed /\ incl res normed /\ (nlast z = None -> res = normed).
Proof.
  unfold candidates. destruct (filter_out norm theta) as [normed|] eqn:E; [|discriminate]. cbn [bind]. intros H. exists normed. split; auto.
  destruct (nlast z); [|inversion H; subst; split; [apply incl_refl|auto]].
  split; [|discriminate].
  destruct (Nat.ltb (length normed) 2); [inversion H; apply incl_refl|].
  assert (G : map_out (index normed) (argsort (map dist normed)) = Ok res -> incl res normed).
  { intros M y Iy. apply map_out_Forall2 in M. clear - M Iy. induction M. destruct Iy. destruct Iy as [<-|I]; auto.
    apply index_ok, nth_error_In in H. auto. }
  destruct (filter near normed) as [|x [|y r]] eqn:F; auto. inversion H; subst. intros y [<-|[]].
  assert (In x (filter near normed)) as I by (rewrite F; simpl; auto). apply filter_In in I. tauto.
Qed.
Lemma candidates_total {A} z norm dist near (theta : list A) : (forall x, In x theta -> exists o, norm x = Ok o) ->
  exists res, candidates argsort z norm dist near theta = Ok res.
Proof.
  intros H. unfold candidates. destruct (filter_out_total norm theta H) as [normed ->]. cbn [bind].
  destruct (nlast z); [|eauto]. destruct (Nat.ltb (length normed) 2); [eauto|].
  assert (G : exists res, map_out (index normed) (argsort (map dist normed)) = Ok res).
  { destruct (map_index_argsort normed (map dist normed)) as (res & E & _). rewrite map_length; auto. eauto. }
  destruct (filter near normed) as [|x [|y r]]; eauto.
Qed.
(** a candidate near last_joints is kept *)
Lemma candidates_keep {A} z norm dist near (theta : list A) res t x : candidates argsort z norm dist near theta = Ok res ->
  In t theta -> norm t = Ok (Some x) -> nlast z = None \/ near x = true -> In x res.
Proof.
  intros E It Nx NR. unfold candidates in E. destruct (filter_out norm theta) as [normed|] eqn:F; [|discriminate]. cbn [bind] in E.
  assert (I : In x normed) by (apply (filter_out_in _ _ _ F); eauto).
  destruct (nlast z); [|inversion E; subst; auto]. destruct NR as [NR|NR]; [discriminate|].
  destruct (Nat.ltb (length normed) 2); [inversion E; subst; auto|].
  assert (IF : In x (filter near normed)) by (apply filter_In; auto).
  assert (G : map_out (index normed) (argsort (map dist normed)) = Ok res -> In x res).
  { intros M. destruct (map_index_argsort normed (map dist normed)) as (res' & E' & F2); [apply map_length|]. rewrite M in E'. inversion E'; subst res'.
    apply In_nth_error in I as [i I]. destruct (SP (map dist normed)) as [P _].
    assert (Ii : In i (argsort (map dist normed))).
    { apply (Permutation_in _ (Permutation_sym P)). apply in_seq. rewrite map_length. split; [lia|]. simpl. apply nth_error_Some. congruence. }
    clear - F2 I Ii. induction F2 as [|a b la lb H F2 IH]; [destruct Ii|]. destruct Ii as [->|Ii]; [left; congruence|right; auto]. }
  destruct (filter near normed) as [|y [|y' r]] eqn:FN; auto. inversion E; subst. destruct IF as [->|[]]. simpl; auto.
Qed.
(** with last_joints and finite distances *)
Lemma candidates_last {A} z norm (d : A -> R) near (theta : list A) normed :
  nlast z <> None -> filter_out norm theta = Ok normed ->
  exists res, candidates argsort z norm (fun x => Fin (d x)) near theta = Ok res /\
    ((Permutation res normed /\ nearest_first d res) \/
     (exists x, res = [x] /\ In x normed /\ filter near normed = [x])).
Proof.
  intros L E. unfold candidates. rewrite E. cbn [bind]. destruct (nlast z); [clear L|congruence].
  destruct (Nat.ltb_spec (length normed) 2) as [S|S].
  - exists normed. split; auto. left. split; auto. destruct normed as [|x [|y r]]; simpl in S; try lia; repeat constructor.
  - destruct (sorted_by d normed) as (res & Er & P & So).
    destruct (filter near normed) as [|x [|y r]] eqn:F; [exists res; auto| |exists res; auto].
    exists [x]. split; auto. right. exists x. split; auto. split; auto.
    assert (In x (filter near normed)) as I by (rewrite F; simpl; auto). apply filter_In in I. tauto.
Qed.

(** *** The final sort *)
Lemma sort_no_last sols : sort_solutions argsort None sols = Ok sols.
Proof. reflexivity. Qed.
Lemma joint_dist_euclid a b : joint_dist a b = euclid a b.
Proof.
  unfold joint_dist, euclid. f_equal. revert b. induction a as [|x a IH]; intros [|y b]; simpl; auto. rewrite IH. reflexivity.
Qed.
Lemma sort_last lj sols res : sort_solutions argsort (Some lj) sols = Ok res ->
  sols <> [] /\ Permutation res sols /\ nearest_first (fun s => euclid s lj) res.
Proof.
  unfold sort_solutions. destruct sols as [|s sols]; [discriminate|]. destruct (Nat.eqb (length s) (length lj)); [|discriminate].
  intros E. destruct (sorted_by (fun s => joint_dist s lj) (s :: sols)) as (res' & E' & P & S). rewrite E in E'. inversion E'; subst res'.
  split; [discriminate|]. split; auto.
  clear - S. induction S as [|a l S IH F]; constructor; auto.
  eapply Forall_impl; [|exact F]. simpl. intros b. rewrite !joint_dist_euclid. auto.
Qed.
Lemma sort_last_ok lj s sols : length s = length lj -> exists res, sort_solutions argsort (Some lj) (s :: sols) = Ok res.
Proof.
  intros E. unfold sort_solutions. rewrite E, Nat.eqb_refl. destruct (sorted_by (fun s => joint_dist s lj) (s :: sols)) as (res & Er & _). eauto.
Qed.
Lemma sort_some last sols n x : (forall l, last = Some l -> length l = n) -> In x sols -> (forall s, In s sols -> length s = n) ->
  exists res, sort_solutions argsort last sols = Ok res.
Proof.
  intros L I S. destruct last as [l|]; [|exists sols; reflexivity]. destruct sols as [|s sols]; [destruct I|].
  apply sort_last_ok. rewrite (L l eq_refl), (S s); simpl; auto.
Qed.
Lemma sort_in last sols res : sort_solutions argsort last sols = Ok res -> forall s, In s res <-> In s sols.
Proof.
  destruct last as [lj|]; intros E s.
  - apply sort_last in E as (_ & P & _). split; apply Permutation_in; auto. apply Permutation_sym; auto.
  - inversion E; tauto.
Qed.
End Argsort.

(** An argsort exists: insertion sort on (key, index) pairs. *)
Definition flt_leb (a b : flt R) : bool :=
  match a, b with Fin x, Fin y => Rleb x y | _, NaN => true | NaN, Fin _ => false end.
Fixpoint insert_key (p : flt R * nat) (l : list (flt R * nat)) : list (flt R * nat) :=
  match l with
  | [] => [p]
  | q :: l' => if flt_leb (fst p) (fst q) then p :: l else q :: insert_key p l'
  end.
Definition insertion_argsort (l : list (flt R)) : list nat :=
  map snd (fold_right insert_key [] (combine l (seq 0 (length l)))).
Lemma flt_leb_le a b : flt_leb a b = true <-> flt_le a b.
Proof. destruct a, b; simpl; try rewrite Rleb_true; try tauto. split; [discriminate|tauto]. Qed.
Lemma flt_leb_total a b : flt_leb a b = false -> flt_le b a.
Proof. destruct a, b; simpl; try rewrite Rleb_false; try discriminate; try tauto. lra. Qed.
Lemma flt_le_trans a b c : flt_le a b -> flt_le b c -> flt_le a c.
Proof. destruct a, b, c; simpl; try tauto. lra. Qed.
Lemma insert_perm p l : Permutation (insert_key p l) (p :: l).
Proof.
  induction l as [|q l IH]; simpl; auto. destruct (flt_leb (fst p) (fst q)); auto.
  eapply Permutation_trans; [apply perm_skip; exact IH|constructor].
Qed.
Lemma insert_sorted p l : StronglySorted (fun a b => flt_le (fst a) (fst b)) l -> StronglySorted (fun a b => flt_le (fst a) (fst b)) (insert_key p l).
Proof.
  induction 1 as [|q l S IH F]; simpl. repeat constructor.
  destruct (flt_leb (fst p) (fst q)) eqn:E.
  - apply flt_leb_le in E. constructor. constructor; auto. constructor; auto.
    eapply Forall_impl; [|exact F]. simpl. intros a; apply flt_le_trans; auto.
  - constructor; auto. apply Forall_forall. intros a I. apply (Permutation_in _ (insert_perm p l)) in I as [<-|I].
    apply flt_leb_total; auto. rewrite Forall_forall in F; auto.
Qed.
Lemma insertion_argsort_spec : argsort_spec insertion_argsort.
Proof.
  intros l. unfold insertion_argsort. set (ps := combine l (seq 0 (length l))).
  assert (P : Permutation (fold_right insert_key [] ps) ps).
  { induction ps; simpl; auto. eapply Permutation_trans; [apply insert_perm|auto]. }
  assert (S : StronglySorted (fun a b => flt_le (fst a) (fst b)) (fold_right insert_key [] ps)).
  { clear P. induction ps; simpl. constructor. apply insert_sorted; auto. }
  split.
  - eapply Permutation_trans; [apply Permutation_map; exact P|]. unfold ps. 
    replace (map snd (combine l (seq 0 (length l)))) with (seq 0 (length l)); auto.
    generalize 0%nat. clear. induction l; intros n; simpl; f_equal; auto.
  - assert (C : Forall (fun p => nth (snd p) l NaN = fst p) (fold_right insert_key [] ps)).
    { apply Forall_forall. intros p I. apply (Permutation_in _ P) in I. unfold ps in I. clear - I.
      destruct p as [x i]. simpl. 
      assert (G : forall l n, In (x, i) (combine l (seq n (length l))) -> (n <= i)%nat /\ nth (i - n) l NaN = x).
      { clear. induction l as [|a l IH]; simpl; intros n H. destruct H. destruct H as [H|H].
        - inversion H; subst. rewrite Nat.sub_diag. auto.
        - apply IH in H as [H1 H2]. split. lia. replace (i - n)%nat with (S (i - S n)) by lia. auto. }
      destruct (G l 0%nat I) as [_ H]. rewrite Nat.sub_0_r in H. auto. }
    rewrite map_map. clear P. induction S as [|p q S IH F]; simpl. constructor. inversion C as [|? ? C1 C2]; subst. constructor; auto.
    apply Forall_forall. intros y I. apply in_map_iff in I as (p' & <- & I). rewrite Forall_forall in F, C2. rewrite C1, (C2 _ I). auto.
Qed.

(** *** Normalised values *)
Lemma normalize_lims z j theta x : normalize z j theta = Ok x -> exists lu, lims z j lu.
Proof.
  unfold normalize, lims. destruct (nlimits z) as [[ls us]|]; [|intros _; exists None; exact I].
  destruct (index ls j) as [l|] eqn:A; [|discriminate]. cbn [bind]. destruct (index us j) as [u|] eqn:B; [|discriminate].
  intros _. exists (Some (l, u)). apply index_ok in A. apply index_ok in B. auto.
Qed.
Lemma normalize_some z j theta x : normalize z j theta = Ok (Some x) ->
  exists lu, lims z j lu /\ ang_eq x theta /\ in_lims lu x.
Proof.
  intros E. destruct (normalize_lims z j theta _ E) as [lu L]. exists lu. split; auto.
  destruct (nlast z) as [last|] eqn:NL.
  - destruct (lt_dec j (length last)) as [J|J].
    + destruct (normalize_spec z j theta lu L) as [[F _]|(y & F & A & B & _)]; [intros l El; rewrite NL in El; inversion El; subst; auto|congruence|].
      rewrite E in F. inversion F; subst. auto.
    + rewrite (normalize_start z j theta lu L), NL in E. destruct (start_of lu theta); [|discriminate].
      unfold index in E. rewrite (proj2 (nth_error_None last j)) in E by lia. discriminate.
  - destruct (normalize_spec z j theta lu L) as [[F _]|(y & F & A & B & _)]; [intros l El; congruence|congruence|].
    rewrite E in F. inversion F; subst. auto.
Qed.
Lemma lims_allowed r last j lu x : lims (normalize_joints r last false) j lu -> in_lims lu x -> allowed r j x.
Proof.
  unfold lims, allowed, limits_of, normalize_joints. simpl. intros L I l u (ls & us & A & B & C & D).
  rewrite A, B in L. destruct lu as [[l' u']|]; [|tauto]. destruct L as [L1 L2]. simpl in I.
  assert (l = l') by congruence. assert (u = u') by congruence. subst. auto.
Qed.
Lemma normalize_allowed r last j theta x : normalize (normalize_joints r last false) j theta = Ok (Some x) ->
  ang_eq x theta /\ allowed r j x.
Proof. intros E. destruct (normalize_some _ _ _ _ E) as (lu & L & A & I). split; auto. eapply lims_allowed; eauto. Qed.
(** an allowed value at most a turn away is found *)
Lemma normalize_found r j theta y : (forall ls us, rlower r = Some ls -> rupper r = Some us -> (j < length ls)%nat /\ (j < length us)%nat) ->
  allowed r j y -> ang_eq theta y -> Rabs (theta - y) < 4 * PI ->
  exists x, normalize (normalize_joints r None false) j theta = Ok (Some x).
Proof.
  intros Len Al A B. pose proof PI_pos as PP. set (z := normalize_joints r None false).
  assert (exists lu, lims z j lu /\ in_lims lu y) as (lu & L & Iy).
  { unfold lims, z, normalize_joints. simpl. destruct (rlower r) as [ls|] eqn:El; [|exists None; simpl; auto].
    destruct (rupper r) as [us|] eqn:Eu; [|exists None; simpl; auto].
    destruct (Len ls us eq_refl eq_refl) as [L1 L2].
    destruct (nth_error ls j) as [l|] eqn:E; [|apply nth_error_None in E; lia].
    destruct (nth_error us j) as [u|] eqn:F; [|apply nth_error_None in F; lia].
    exists (Some (l, u)). split; auto. simpl. apply Al. exists ls, us. auto. }
  destruct (normalize_spec z j theta lu L) as [(_ & N0 & N1 & N2)|(x & E & _)]; [intros l El; discriminate| |eauto].
  exfalso. destruct A as [n E]. rewrite E in *. apply Rabs_lt_iff in B. replace (y + 2 * PI * IZR n - y) with (2 * PI * IZR n) in B by ring.
  assert (-2 < IZR n < 2) as [B1 B2] by nra. apply lt_IZR in B1. apply lt_IZR in B2.
  assert (n = -1 \/ n = 0 \/ n = 1)%Z as [-> |[-> | ->]] by lia.
  - apply N2. replace (y + 2 * PI * -1 + 2 * PI) with y by ring. auto.
  - apply N0. replace (y + 2 * PI * 0) with y by ring. auto.
  - apply N1. replace (y + 2 * PI * 1 - 2 * PI) with y by ring. auto.
Qed.
Lemma normalize_flt_some z j t q : normalize_flt z j t = Ok (Some (Fin q)) -> exists t', t = Fin t' /\ normalize z j t' = Ok (Some q).
Proof.
  destruct t as [t|]; simpl.
  - destruct (normalize z j t) as [[x|]|] eqn:E; simpl; intros F; inversion F; subst. eauto.
  - destruct (nlimits z) as [[ls us]|]. destruct (index ls j); simpl; [|discriminate]. destruct (index us j); simpl; discriminate.
    destruct (nlast z); [|discriminate]. destruct (index l j); simpl; discriminate.
Qed.
Lemma normalize_pair_some z j t q : normalize_pair z j t = Ok (Some q) <->
  normalize z (fst j) (fst t) = Ok (Some (fst q)) /\ normalize z (snd j) (snd t) = Ok (Some (snd q)).
Proof.
  unfold normalize_pair. split.
  - destruct (normalize z (fst j) (fst t)) as [[x|]|]; simpl; try discriminate;
    destruct (normalize z (snd j) (snd t)) as [[y|]|]; simpl; try discriminate. intros E; inversion E; auto.
  - intros [-> ->]. destruct q. reflexivity.
Qed.

