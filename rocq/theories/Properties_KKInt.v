(** Property C150: the Kramers-Kronig transform and the principal value integral (vocabulary in
    Spec_KK.v). *)
From Coq Require Import List ZArith Bool Lia Reals Lra Psatz.
From Coquelicot Require Import Coquelicot.
From Verif Require Import Base NumPy Proof_NumPy Model_MathFn Spec_KK Proof_KKInt Proof_KKInt2.
Import ListNotations.
Local Notation length := List.length.
Open Scope R_scope.

(** ** C150 *)
(** With the padding the periodic continuation changes the transform by at most 6 F / n^2. *)
Theorem C150_padding : forall v i n r t F, length i = length v -> (2 <= n)%Z -> kk_trans v i n = Ok r -> (t < length v)%nat ->
  (forall s, (s < length v)%nat -> Rabs (nth s i 0 - nth s v 0) <= F) ->
  Rabs (nth t r 0 - nsum (length v) (fun s => (nth s v 0 - nth s i 0) * open_kernel (Z.of_nat t - Z.of_nat s))) <= 6 * F / IZR n ^ 2.
Proof. exact kk_padding. Qed.
Print Assumptions C150_padding.
(** For a smooth current whose difference f from the resistor line vanishes outside the grid. *)
Theorem C150_integral : forall v i n f M F h q, (2 <= length v)%nat -> length i = length v -> (2 <= n)%Z -> 0 < h -> (length v <= 2 * q)%nat ->
  (forall k, (k < length v)%nat -> nth k v 0 = nth 0 v 0 + INR k * h /\ nth k i 0 = nth k v 0 + f (nth k v 0)) ->
  smooth f M -> (forall x, Rabs (f x) <= F) -> (forall x, x < nth 0 v 0 \/ nth (length v - 1) v 0 < x -> f x = 0) ->
  exists r, kk_trans v i n = Ok r /\ length r = length v /\
    forall t, (t < length v)%nat -> ex_RInt (pairs f (nth t v 0)) 0 (2 * h * INR q) /\
      Rabs (nth t r 0 - kk_integral f (nth t v 0) (2 * h * INR q)) <= M * (2 * h * INR q) * h / PI + 6 * F / IZR n ^ 2.
Proof. exact kk_is_integral. Qed.
Print Assumptions C150_integral.

(** *** A case: a smooth bump between -1 and 1 *)
Definition bump (x : R) : R := Rmax 0 (1 - x ^ 2) ^ 3.
Lemma rect_pos y : 0 <= Rmax 0 y.
Proof. apply Rmax_l. Qed.
Lemma rect_der k y : is_derive (fun y => Rmax 0 y ^ S (S k)) y (INR (S (S k)) * Rmax 0 y ^ S k).
Proof.
  destruct (Rtotal_order y 0) as [Y|[->|Y]].
  - apply (is_derive_ext_loc (fun _ => 0)).
    + assert (E0 : 0 < - y) by lra. exists (mkposreal _ E0). intros z Z. apply ball_R in Z. cbn [pos] in Z. apply Rabs_lt_between in Z. rewrite Rmax_left by lra. match goal with |- @eq _ ?a ?b => change (@eq R a b) end. cbn [pow]. ring.
    + rewrite Rmax_left by lra. evar_last; [apply @is_derive_const|]. match goal with |- @eq _ ?a ?b => change (@eq R 0 b) end. cbn [pow]. ring.
  - apply is_derive_Reals. rewrite Rmax_left by lra. replace (INR (S (S k)) * 0 ^ S k) with 0 by (cbn [pow]; ring). intros eps E. assert (D0 : 0 < Rmin eps 1) by (apply Rmin_glb_lt; lra). exists (mkposreal _ D0). intros h H0 H. cbn [pos] in H.
    rewrite Rplus_0_l, (Rmax_left 0 0) by lra. replace (0 ^ S (S k)) with 0 by (cbn [pow]; ring). rewrite !Rminus_0_r. pose proof (Rmin_l eps 1). pose proof (Rmin_r eps 1).
    destruct (Rle_or_lt h 0) as [N|P].
    + rewrite Rmax_left by lra. cbn [pow]. unfold Rdiv. rewrite !Rmult_0_l, Rabs_R0. exact E.
    + rewrite Rmax_right by lra. rewrite Rabs_pos_eq in H by lra. replace (h ^ S (S k) / h) with (h * h ^ k) by (cbn [pow]; field; lra).
      assert (PK : 0 <= h ^ k <= 1) by (split; [apply pow_le; lra|rewrite <- (pow1 k); apply pow_incr; lra]). rewrite Rabs_pos_eq by nra. nra.
  - apply (is_derive_ext_loc (fun y => y ^ S (S k))).
    + exists (mkposreal _ Y). intros z Z. apply ball_R in Z. cbn [pos] in Z. apply Rabs_lt_between in Z. rewrite Rmax_right by lra. reflexivity.
    + rewrite Rmax_right by lra. evar_last; [apply (is_derive_pow (fun y => y) (S (S k)) y 1), @is_derive_id|]. cbn [pred]. ring.
Qed.
Lemma inner_der (x : R) : is_derive (fun x => 1 - x ^ 2) x (- (2 * x)).
Proof. auto_derive; [trivial|ring]. Qed.
Lemma bump_smooth : smooth bump 30.
Proof.
  exists (fun x => - 6 * x * Rmax 0 (1 - x ^ 2) ^ 2), (fun x => - 6 * Rmax 0 (1 - x ^ 2) ^ 2 + 24 * x ^ 2 * Rmax 0 (1 - x ^ 2)). split; [|split].
  - intros x. unfold bump. evar_last; [apply (is_derive_comp (fun y => Rmax 0 y ^ 3) (fun x => 1 - x ^ 2)); [apply (rect_der 1)|apply inner_der]|]. unfold scal; cbn -[INR pow]. unfold mult; cbn -[INR pow]. change (INR 3) with (1 + 1 + 1). ring.
  - intros x. evar_last.
    + apply @is_derive_mult; [|apply (is_derive_comp (fun y => Rmax 0 y ^ 2) (fun x => 1 - x ^ 2)); [apply (rect_der 0)|apply inner_der]|]; [auto_derive; [trivial|reflexivity]|]. intros; apply Rmult_comm.
    + unfold scal, plus, mult; cbn -[INR pow]. unfold mult; cbn -[INR pow]. change (INR 2) with (1 + 1). ring.
  - intros x. destruct (Rle_or_lt 1 (x ^ 2)) as [X|X].
    + rewrite Rmax_left by lra. match goal with |- Rabs ?e <= _ => replace e with 0 by ring end. rewrite Rabs_R0. lra.
    + rewrite Rmax_right by lra. assert (0 <= x ^ 2) by (apply pow2_ge_0). apply Rabs_le. nra.
Qed.
Lemma bump_bound x : Rabs (bump x) <= 1.
Proof.
  assert (P : 0 <= Rmax 0 (1 - x ^ 2) <= 1) by (split; [apply rect_pos|apply Rmax_lub; [lra|pose proof (pow2_ge_0 x); lra]]).
  unfold bump. rewrite Rabs_pos_eq by (apply pow_le; apply P). apply Rle_trans with (1 ^ 3); [apply pow_incr, P|lra].
Qed.
Lemma bump_out x : x < -1 \/ 1 < x -> bump x = 0.
Proof. intros H. unfold bump. rewrite Rmax_left by (destruct H; nra). ring. Qed.
Example C150_case : let v := [-1; -1 / 2; 0; 1 / 2; 1] in let i := map (fun x => x + bump x) v in
  (2 <= length v)%nat /\ length i = length v /\ (2 <= 50)%Z /\ 0 < 1 / 2 /\ (length v <= 2 * 3)%nat /\
  (forall k, (k < length v)%nat -> nth k v 0 = nth 0 v 0 + INR k * (1 / 2) /\ nth k i 0 = nth k v 0 + bump (nth k v 0)) /\
  smooth bump 30 /\ (forall x, Rabs (bump x) <= 1) /\ (forall x, x < nth 0 v 0 \/ nth (length v - 1) v 0 < x -> bump x = 0) /\ bump 0 = 1.
Proof.
  cbn [length map nth]. repeat split; try lia; try lra; try apply bump_smooth; try apply bump_bound.
  - destruct k as [|[|[|[|[|k]]]]]; cbn -[Rdiv]; try lra. lia.
  - destruct k as [|[|[|[|[|k]]]]]; cbn [nth]; try reflexivity. lia.
  - intros x H. cbn [Nat.sub nth] in H. now apply bump_out.
  - unfold bump. rewrite Rmax_right by lra. ring.
Qed.
