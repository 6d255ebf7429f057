(** Facts about equivalent_configurations. *)
From Coq Require Import Reals ZArith List Bool Lia Lra Psatz Sorting.Permutation Sorting.Sorted.
From Verif Require Import LinAlg RealAux Py FactsReal SpecRot ModelTransform ModelRobot ModelKin SpecKin FactsKin FactsJac
  ModelInvkin SpecInvkin FactsInvkin FactsIkMut SpecEquiv.
Import ListNotations.
Open Scope R_scope.

(** *** Changing one entry *)
Lemma nth_set_nth {A} i (v d : A) l j : (i < length l)%nat -> nth j (set_nth i v l) d = if Nat.eqb j i then v else nth j l d.
Proof.
  revert i j. induction l as [|a l IH]; intros i j L; simpl in L; [lia|].
  destruct i as [|i].
  - destruct j; reflexivity.
  - destruct j as [|j]; [reflexivity|]. change (nth j (set_nth i v l) d = if Nat.eqb j i then v else nth j l d). apply IH. lia.
Qed.
Lemma add_at_length i x l : length (add_at i x l) = length l.
Proof. apply set_nth_length. Qed.
Lemma nth_add_at i x l j : (i < length l)%nat -> nth j (add_at i x l) 0 = if Nat.eqb j i then nth i l 0 + x else nth j l 0.
Proof. intros L. apply nth_set_nth, L. Qed.
Lemma nth_ext0 (a b : list R) : length a = length b -> (forall i, (i < length a)%nat -> nth i a 0 = nth i b 0) -> a = b.
Proof. intros L H. apply (nth_ext a b 0 0); auto. Qed.
Lemma add_at_0 i l : (i < length l)%nat -> add_at i 0 l = l.
Proof.
  intros L. apply nth_ext0. apply add_at_length. intros j _. rewrite nth_add_at by auto.
  destruct (Nat.eqb_spec j i); [subst; lra|reflexivity].
Qed.

(** *** Lists without repetition *)
Lemma NoDup_app {A} (a b : list A) : NoDup a -> NoDup b -> (forall x, In x a -> In x b -> False) -> NoDup (a ++ b).
Proof.
  induction 1 as [|x a N Na IH]; simpl; intros Nb D; auto. constructor.
  - rewrite in_app_iff. intros [I|I]; [auto|]. apply (D x); simpl; auto.
  - apply IH; auto. intros y Iy Jy. apply (D y); simpl; auto.
Qed.
Lemma NoDup_flat_map {A B} (f : A -> list B) l : NoDup l -> (forall x, In x l -> NoDup (f x)) ->
  (forall x y z, In x l -> In y l -> In z (f x) -> In z (f y) -> x = y) -> NoDup (flat_map f l).
Proof.
  induction 1 as [|x l N Nl IH]; simpl; intros F D. constructor.
  apply NoDup_app; auto.
  - apply IH; auto. intros a b c Ia Ib. apply D; auto.
  - intros z Iz J. apply in_flat_map in J as (y & Iy & Jz). assert (x = y) by (apply (D x y z); auto). subst. auto.
Qed.
Lemma NoDup_map_inj {A B} (f : A -> B) l : NoDup l -> (forall x y, In x l -> In y l -> f x = f y -> x = y) -> NoDup (map f l).
Proof.
  induction 1 as [|x l N Nl IH]; simpl; intros D; constructor.
  - rewrite in_map_iff. intros (y & E & I). assert (x = y) by (apply D; auto). subst. auto.
  - apply IH. intros a b Ia Ib. apply D; auto.
Qed.

(** *** One joint *)
(** turn counts tried for one joint *)
Definition ups (u : Z) : list Z := map (fun j => Z.of_nat (S j)) (seq 0 (Z.to_nat u)).
Definition downs (l : Z) : list Z := map (fun j => Z.opp (Z.of_nat (S j))) (seq 0 (Z.to_nat l)).
Definition turns_of (t : option jtype) (u l : Z) : list Z :=
  match t with Some Rotary => 0%Z :: ups u ++ downs l | _ => [0%Z] end.
Definition grid (k : nat) (zs : list Z) (F : list (list R)) : list (list R) :=
  flat_map (fun z => map (add_at k (2 * PI * IZR z)) F) zs.

Lemma in_ups u z : In z (ups u) <-> (1 <= z <= u)%Z.
Proof.
  unfold ups. rewrite in_map_iff. split.
  - intros (j & <- & I). apply in_seq in I. lia.
  - intros H. exists (Z.to_nat (z - 1)). split; [lia|]. apply in_seq. lia.
Qed.
Lemma in_downs l z : In z (downs l) <-> (- l <= z <= -1)%Z.
Proof.
  unfold downs. rewrite in_map_iff. split.
  - intros (j & <- & I). apply in_seq in I. lia.
  - intros H. exists (Z.to_nat (- z - 1)). split; [lia|]. apply in_seq. lia.
Qed.
Lemma in_turns t u l z : (0 <= u)%Z -> (0 <= l)%Z ->
  (In z (turns_of t u l) <-> match t with Some Rotary => (- l <= z <= u)%Z | _ => z = 0%Z end).
Proof.
  intros U L. unfold turns_of. destruct t as [[]|]; simpl; try (split; [intros [<-|[]]; auto|auto]).
  rewrite in_app_iff, in_ups, in_downs. lia.
Qed.
Lemma nodup_turns t u l : NoDup (turns_of t u l).
Proof.
  assert (S1 : NoDup [0%Z]) by (repeat constructor; simpl; tauto).
  unfold turns_of. destruct t as [[]|]; auto. constructor.
  - rewrite in_app_iff, in_ups, in_downs. lia.
  - apply NoDup_app.
    + apply NoDup_map_inj; [apply seq_NoDup|]. intros; lia.
    + apply NoDup_map_inj; [apply seq_NoDup|]. intros; lia.
    + intros x. rewrite in_ups, in_downs. lia.
Qed.
Lemma shifts_ups theta found k u : shifts theta found k 1 u = grid k (ups u) (found ++ [theta]).
Proof.
  unfold shifts, grid, ups. rewrite !flat_map_concat_map, map_map. f_equal. apply map_ext. intros j. apply map_ext. intros q.
  f_equal. rewrite <- INR_IZR_INZ. ring.
Qed.
Lemma shifts_downs theta found k l : shifts theta found k (-1) l = grid k (downs l) (found ++ [theta]).
Proof.
  unfold shifts, grid, downs. rewrite !flat_map_concat_map, map_map. f_equal. apply map_ext. intros j. apply map_ext. intros q.
  f_equal. rewrite opp_IZR, <- INR_IZR_INZ. ring.
Qed.
Lemma grid_0 k F : (forall q, In q F -> (k < length q)%nat) -> grid k [0%Z] F = F.
Proof.
  intros L. unfold grid. simpl. rewrite app_nil_r. rewrite <- (map_id F) at 2. apply map_ext_in. intros q I.
  replace (2 * PI * 0) with 0 by ring. apply add_at_0; auto.
Qed.
Lemma grid_app k a b F : grid k (a ++ b) F = grid k a F ++ grid k b F.
Proof. unfold grid. apply flat_map_app. Qed.
Lemma ups_nil u : (u <= 0)%Z -> ups u = [].
Proof. intros. unfold ups. replace (Z.to_nat u) with 0%nat by lia. reflexivity. Qed.
Lemma downs_nil u : (u <= 0)%Z -> downs u = [].
Proof. intros. unfold downs. replace (Z.to_nat u) with 0%nat by lia. reflexivity. Qed.

Lemma step_grid theta ty up lo found k :
  (forall q, In q (found ++ [theta]) -> (k < length q)%nat) ->
  Permutation (equiv_step theta ty up lo found k ++ [theta])
              (grid k (turns_of (nth_error ty k) (nth k up 0%Z) (nth k lo 0%Z)) (found ++ [theta])).
Proof.
  intros L. unfold equiv_step, turns_of.
  set (u := nth k up 0%Z). set (l := nth k lo 0%Z).
  destruct (nth_error ty k) as [[]|]; try (destruct (Z.ltb 0 u || Z.ltb 0 l)%bool; rewrite grid_0 by auto; apply Permutation_refl).
  change (0%Z :: ups u ++ downs l) with ([0%Z] ++ (ups u ++ downs l)). rewrite !grid_app, grid_0 by auto.
  destruct (Z.ltb 0 u || Z.ltb 0 l)%bool eqn:E.
  - rewrite shifts_ups, shifts_downs. rewrite <- !app_assoc. apply Permutation_app_head.
    eapply Permutation_trans; [|apply Permutation_app_comm]. rewrite <- app_assoc. apply Permutation_refl.
  - apply orb_false_iff in E as [E1 E2]. rewrite ups_nil, downs_nil by lia. simpl. rewrite app_nil_r. apply Permutation_refl.
Qed.

(** *** All joints *)
(** configurations reached after the first k joints *)
Definition reached (theta : list R) (zs : nat -> list Z) (k : nat) (q : list R) : Prop :=
  length q = length theta /\
  forall i, (i < length theta)%nat ->
    if Nat.ltb i k then exists z, In z (zs i) /\ nth i q 0 = nth i theta 0 + 2 * PI * IZR z else nth i q 0 = nth i theta 0.
Lemma turn_inj x a b : x + 2 * PI * IZR a = x + 2 * PI * IZR b -> a = b.
Proof.
  intros E. apply eq_IZR. pose proof PI_pos. apply Rmult_eq_reg_l with (2 * PI); lra.
Qed.
Lemma grid_reached theta zs k F : (k < length theta)%nat -> NoDup (zs k) ->
  NoDup F -> (forall q, In q F <-> reached theta zs k q) ->
  NoDup (grid k (zs k) F) /\ (forall q, In q (grid k (zs k) F) <-> reached theta zs (S k) q).
Proof.
  intros K NZ NF HF.
  assert (LF : forall q, In q F -> (k < length q)%nat) by (intros q I; apply HF in I as [-> _]; auto).
  assert (KF : forall q, In q F -> nth k q 0 = nth k theta 0).
  { intros q I. apply HF in I as [_ I]. specialize (I k K). rewrite Nat.ltb_irrefl in I. auto. }
  split.
  - unfold grid. apply NoDup_flat_map; auto.
    + intros z _. apply NoDup_map_inj; auto. intros p q Ip Iq E.
      apply nth_ext0. { apply HF in Ip as [-> _]. apply HF in Iq as [-> _]. auto. }
      intros i Li. pose proof (f_equal (fun l => nth i l 0) E) as Ei. cbv beta in Ei. rewrite !nth_add_at in Ei by auto.
      destruct (Nat.eqb_spec i k); auto. subst. lra.
    + intros a b q _ _ Ia Ib. apply in_map_iff in Ia as (p1 & <- & I1). apply in_map_iff in Ib as (p2 & E & I2).
      pose proof (f_equal (fun l => nth k l 0) E) as Ek. cbv beta in Ek. rewrite !nth_add_at in Ek by auto. rewrite Nat.eqb_refl in Ek.
      rewrite (KF p1), (KF p2) in Ek by auto. symmetry. eapply turn_inj; eauto.
  - intros q. unfold grid. rewrite in_flat_map. split.
    + intros (z & Iz & J). apply in_map_iff in J as (p & <- & Ip). pose proof (proj1 (HF p) Ip) as [Lp Rp].
      split. { rewrite add_at_length; auto. }
      intros i Li. rewrite nth_add_at by auto. specialize (Rp i Li).
      destruct (Nat.eqb_spec i k) as [->|N].
      * rewrite (proj2 (Nat.ltb_lt k (S k))) by lia. exists z. split; auto. rewrite KF; auto.
      * destruct (Nat.ltb_spec i k); destruct (Nat.ltb_spec i (S k)); try lia; auto.
    + intros [Lq Rq]. pose proof (Rq k K) as Rk. rewrite (proj2 (Nat.ltb_lt k (S k))) in Rk by lia. destruct Rk as (z & Iz & Ez).
      exists z. split; auto. apply in_map_iff. exists (add_at k (- (2 * PI * IZR z)) q). split.
      * apply nth_ext0. { rewrite !add_at_length; auto. } intros i _. rewrite nth_add_at by (rewrite add_at_length; lia).
        rewrite !nth_add_at by lia. rewrite Nat.eqb_refl. destruct (Nat.eqb_spec i k); [subst; lra|auto].
      * apply HF. split. { rewrite add_at_length; auto. } intros i Li. rewrite nth_add_at by lia. specialize (Rq i Li).
        destruct (Nat.eqb_spec i k) as [->|N].
        -- rewrite Nat.ltb_irrefl. rewrite Ez. lra.
        -- destruct (Nat.ltb_spec i k); destruct (Nat.ltb_spec i (S k)); try lia; auto.
Qed.
Lemma fold_reached theta ty up lo k : (k <= length theta)%nat ->
  let zs i := turns_of (nth_error ty i) (nth i up 0%Z) (nth i lo 0%Z) in
  let F := fold_left (equiv_step theta ty up lo) (seq 0 k) [] ++ [theta] in
  NoDup F /\ forall q, In q F <-> reached theta zs k q.
Proof.
  intros K zs. induction k as [|k IH].
  - simpl. split. { repeat constructor; simpl; tauto. } intros q. split.
    + intros [<-|[]]. split; auto. intros i _. reflexivity.
    + intros [L H]. left. apply nth_ext0; auto. intros i Li. specialize (H i Li). simpl in H. auto.
  - rewrite seq_S, fold_left_app. cbn [fold_left plus]. set (found := fold_left _ (seq 0 k) []) in *.
    destruct IH as [N H]; [lia|].
    assert (P := step_grid theta ty up lo found k). destruct (grid_reached theta zs k (found ++ [theta])) as [N' H']; auto.
    { apply nodup_turns. }
    assert (P' : Permutation (equiv_step theta ty up lo found k ++ [theta]) (grid k (zs k) (found ++ [theta]))).
    { apply P. intros q I. apply H in I as [-> _]. lia. }
    split.
    + apply (Permutation_NoDup (Permutation_sym P') N').
    + intros q. rewrite <- H'. split; apply Permutation_in; auto using Permutation_sym.
Qed.

(** *** Limits *)
Lemma floor_div_le x y z : 0 < y -> ((z <= floor_div x y)%Z <-> IZR z * y <= x).
Proof.
  intros Y. unfold floor_div. pose proof (floor_bounds (x / y)) as [A B].
  assert (E : x = x / y * y) by (field; lra). set (w := x / y) in *. split; intros H.
  - rewrite E. apply IZR_le in H. apply Rmult_le_compat_r; lra.
  - assert (IZR z <= w). { rewrite E in H. apply Rmult_le_reg_r with y; lra. }
    assert (z < Int_part w + 1)%Z by (apply lt_IZR; rewrite plus_IZR; lra). lia.
Qed.
Lemma whole_turns_nth ty a b : whole_turns ty a b <->
  length a = length ty /\ length b = length ty /\
  forall i, (i < length ty)%nat -> if match nth i ty Mobile2 with Rotary => true | _ => false end
                                   then ang_eq (nth i b 0) (nth i a 0) else nth i b 0 = nth i a 0.
Proof.
  split.
  - induction 1 as [|ty x y la lb E W IH|j ty x la lb N W IH]; simpl.
    + repeat split; auto. intros; lia.
    + destruct IH as (L1 & L2 & IH). repeat split; auto. intros [|i] Li; auto. apply IH; lia.
    + destruct IH as (L1 & L2 & IH). repeat split; auto. intros [|i] Li; [|apply IH; lia]. destruct j; auto. congruence.
  - revert a b. induction ty as [|j ty IH]; intros [|x a] [|y b] (L1 & L2 & H); simpl in *; try discriminate; [constructor|].
    assert (W : whole_turns ty a b). { apply IH. repeat split; auto. intros i Li. apply (H (S i)). lia. }
    specialize (H 0%nat ltac:(lia)). simpl in H. destruct j; [constructor; auto|subst; constructor; auto; congruence..].
Qed.
Lemma within_nth r lo up q : rlower r = Some lo -> rupper r = Some up -> length lo = length q -> length up = length q ->
  (within_limits r q <-> forall i, (i < length q)%nat -> nth i lo 0 <= nth i q 0 <= nth i up 0).
Proof.
  intros El Eu. unfold within_limits. rewrite El, Eu. clear El Eu. revert q up. induction lo as [|a lo IH]; intros [|x q] [|b up] L1 L2; simpl in *; try discriminate.
  - split; [intros; lia|]. intros _. split; constructor.
  - specialize (IH q up ltac:(lia) ltac:(lia)). split.
    + intros [A B] i Li. inversion A; inversion B; subst. destruct i as [|i]; [lra|]. apply IH; [auto|lia].
    + intros H. assert (G : Forall2 Rle lo q /\ Forall2 Rle q up). { apply IH. intros i Li. apply (H (S i)). lia. }
      specialize (H 0%nat ltac:(lia)). simpl in H. destruct G. split; constructor; auto; lra.
Qed.
Lemma nth_error_nth0 {A} (l : list A) d i : (i < length l)%nat -> nth_error l i = Some (nth i l d).
Proof. intros L. apply nth_error_nth'. auto. Qed.
Lemma nth_floor l theta i (f : R * R -> Z) : (i < length theta)%nat -> length l = length theta ->
  nth i (map f (combine theta l)) 0%Z = f (nth i theta 0, nth i l 0).
Proof.
  revert l i. induction theta as [|t theta IH]; intros [|x l] i Li L; simpl in *; try lia. destruct i; auto. apply IH; lia.
Qed.

Lemma equiv1_spec r lo up theta : wf_robot r -> rlower r = Some lo -> rupper r = Some up ->
  length theta = length (rtype r) -> within_limits r theta ->
  exists sols, equiv1 r theta = Ok sols /\ NoDup sols /\ forall q, In q sols <-> alternative r theta q.
Proof.
  intros W El Eu LT WI. pose proof (wf_lower r W lo El) as Ll. pose proof (wf_upper r W up Eu) as Lu. pose proof PI_pos as PP.
  unfold equiv1. rewrite El, Eu. rewrite Lu, Ll, LT, Nat.eqb_refl. cbn [andb]. rewrite <- LT.
  set (U := map _ (combine theta up)). set (L := map _ (combine theta lo)).
  eexists. split; [reflexivity|].
  destruct (fold_reached theta (rtype r) U L (length theta)) as [N H]; auto.
  set (found := fold_left _ _ []) in *. set (zs := fun i => turns_of _ _ _) in H.
  apply NoDup_remove in N as [N NI]. rewrite app_nil_r in N, NI. split; auto.
  rewrite (within_nth r lo up theta) in WI by (auto; lia).
  assert (Z : forall i z, (i < length theta)%nat -> (In z (zs i) <->
     match nth i (rtype r) Mobile2 with Rotary => nth i lo 0 <= nth i theta 0 + 2 * PI * IZR z <= nth i up 0 | _ => z = 0%Z end)).
  { intros i z Li. specialize (WI i Li). unfold zs. unfold U, L. rewrite !nth_floor by lia. cbn [fst snd].
    rewrite (nth_error_nth0 _ Mobile2) by lia. rewrite in_turns.
    - destruct (nth i (rtype r) Mobile2); try tauto. rewrite floor_div_le by lra.
      assert (X : forall a b, (- a <= b)%Z <-> (- b <= a)%Z) by (intros; lia). rewrite X, floor_div_le by lra. rewrite opp_IZR.
      split; intros [A B]; split; lra.
    - apply floor_div_le; lra.
    - apply floor_div_le; lra. }
  assert (G : forall q, In q (found ++ [theta]) <-> whole_turns (rtype r) theta q /\ within_limits r q).
  { intros q. rewrite H. unfold reached. rewrite whole_turns_nth. split.
    - intros [Lq R]. assert (R' : forall i, (i < length theta)%nat -> exists z, In z (zs i) /\ nth i q 0 = nth i theta 0 + 2 * PI * IZR z).
      { intros i Li. specialize (R i Li). rewrite (proj2 (Nat.ltb_lt _ _) Li) in R. auto. }
      split.
      + repeat split; try lia. intros i Li. destruct (R' i ltac:(lia)) as (z & Iz & Ez). apply Z in Iz; [|lia].
        destruct (nth i (rtype r) Mobile2); [exists z; rewrite Ez; ring|..]; subst z; rewrite Ez; lra.
      + apply (within_nth r lo up); auto; try lia. intros i Li. destruct (R' i ltac:(lia)) as (z & Iz & Ez). apply Z in Iz; [|lia].
        specialize (WI i ltac:(lia)). destruct (nth i (rtype r) Mobile2); [rewrite Ez; lra|..]; subst z; rewrite Ez; lra.
    - intros [(_ & Lq & T) WQ]. split; [lia|]. rewrite (within_nth r lo up) in WQ by (auto; lia).
      intros i Li. rewrite (proj2 (Nat.ltb_lt _ _) Li). specialize (T i ltac:(lia)). specialize (WQ i ltac:(lia)).
      assert (Zi := fun z => Z i z Li). destruct (nth i (rtype r) Mobile2).
      + destruct T as [z Ez]. exists z. split; [|rewrite Ez; ring]. apply Zi. rewrite Ez in WQ. lra.
      + exists 0%Z. split; [apply Zi; auto|lra].
      + exists 0%Z. split; [apply Zi; auto|lra].
      + exists 0%Z. split; [apply Zi; auto|lra]. }
  intros q. specialize (G q). rewrite in_app_iff in G. unfold alternative. split.
  - intros I. split; [intros ->; auto|]. apply G. auto.
  - intros [NE S]. apply G in S as [S|[S|[]]]; auto. congruence.
Qed.
