(** The midpoint rule for the principal value integral. *)
From Coq Require Import List ZArith Bool Lia Reals Lra Psatz.
From Coquelicot Require Import Coquelicot.
From Verif Require Import Base Float NumPy Proof_NumPy Model_MathFn Spec_MathFn Proof_KK Spec_KK Proof_KKInt.
Import ListNotations.
Local Notation length := List.length.
Open Scope R_scope.

(** ** The integrand *)
Section Smooth.
Variables f f1 f2 : R -> R.
Variable M : R.
Hypothesis D1 : forall x, is_derive f x (f1 x).
Hypothesis D2 : forall x, is_derive f1 x (f2 x).
Hypothesis B : forall x, Rabs (f2 x) <= M.

Lemma between x : - M <= f2 x <= M.
Proof. apply Rabs_le_between, B. Qed.
Lemma m_pos : 0 <= M.
Proof. eapply Rle_trans; [apply Rabs_pos|apply (B 0)]. Qed.
(** A function with a nonnegative derivative on the nonnegative numbers. *)
Lemma grows (g dg : R -> R) x : 0 <= x -> (forall y, is_derive g y (dg y)) -> (forall y, 0 <= y -> 0 <= dg y) -> g 0 <= g x.
Proof. intros X D P. destruct (mvt g dg x X D) as [c [C E]]. assert (0 <= dg c * x) by (apply Rmult_le_pos; [apply P; lra|assumption]). lra. Qed.
Lemma right_der (g dg : R -> R) (V y : R) : is_derive g (V + y) (dg (V + y)) -> is_derive (fun u => g (V + u)) y (dg (V + y)).
Proof. intros D. evar_last; [apply (is_derive_comp g (fun u => V + u) y (dg (V + y)) 1); [exact D|auto_derive; [trivial|ring]]|]. unfold scal; cbn. unfold mult; cbn. ring. Qed.
Lemma left_der (g dg : R -> R) (V y : R) : is_derive g (V - y) (dg (V - y)) -> is_derive (fun u => g (V - u)) y (- dg (V - y)).
Proof. intros D. evar_last; [apply (is_derive_comp g (fun u => V - u) y (dg (V - y)) (-1)); [exact D|auto_derive; [trivial|ring]]|]. unfold scal; cbn. unfold mult; cbn. ring. Qed.
Definition first_rest V u := f (V + u) - f (V - u) - 2 * u * f1 V.
Lemma slope_rest V y : 0 <= y -> Rabs (f1 (V + y) + f1 (V - y) - 2 * f1 V) <= 2 * M * y.
Proof.
  intros Y. apply Rabs_le. split.
  - assert (G := grows (fun u => f1 (V + u) + f1 (V - u) + 2 * M * u) (fun u => f2 (V + u) - f2 (V - u) + 2 * M) y Y). cbv beta in G. rewrite Rplus_0_r, Rminus_0_r in G.
    enough (f1 V + f1 V + 2 * M * 0 <= f1 (V + y) + f1 (V - y) + 2 * M * y) by lra. apply G.
    + intros u. apply @is_derive_plus; [apply @is_derive_plus; [apply right_der, D2|apply (left_der f1 f2), D2]|]. auto_derive; [trivial|ring].
    + intros u _. pose proof (between (V + u)). pose proof (between (V - u)). lra.
  - assert (G := grows (fun u => 2 * M * u - (f1 (V + u) + f1 (V - u))) (fun u => 2 * M - (f2 (V + u) - f2 (V - u))) y Y). cbv beta in G. rewrite Rplus_0_r, Rminus_0_r in G.
    enough (2 * M * 0 - (f1 V + f1 V) <= 2 * M * y - (f1 (V + y) + f1 (V - y))) by lra. apply G.
    + intros u. apply @is_derive_minus; [auto_derive; [trivial|ring]|]. apply @is_derive_plus; [apply right_der, D2|apply (left_der f1 f2), D2].
    + intros u _. pose proof (between (V + u)). pose proof (between (V - u)). lra.
Qed.
Lemma rest_der V y : is_derive (first_rest V) y (f1 (V + y) + f1 (V - y) - 2 * f1 V).
Proof.
  unfold first_rest. apply @is_derive_minus; [|auto_derive; [trivial|ring]].
  evar_last; [apply @is_derive_minus; [apply right_der, D1|apply (left_der f f1), D1]|]. unfold minus, plus, opp; cbn. ring.
Qed.
Lemma rest_small V u : 0 <= u -> Rabs (first_rest V u) <= M * u ^ 2.
Proof.
  intros U. assert (Z : first_rest V 0 = 0) by (unfold first_rest; rewrite Rplus_0_r, Rminus_0_r; ring). apply Rabs_le. split.
  - assert (G := grows (fun u => first_rest V u + M * u ^ 2) (fun u => f1 (V + u) + f1 (V - u) - 2 * f1 V + M * (2 * u)) u U). cbv beta in G. rewrite Z in G.
    enough (0 + M * 0 ^ 2 <= first_rest V u + M * u ^ 2) by lra. apply G.
    + intros y. apply @is_derive_plus; [apply rest_der|]. auto_derive; [trivial|ring].
    + intros y Y. pose proof (slope_rest V y Y) as W. apply Rabs_le_between in W. lra.
  - assert (G := grows (fun u => M * u ^ 2 - first_rest V u) (fun u => M * (2 * u) - (f1 (V + u) + f1 (V - u) - 2 * f1 V)) u U). cbv beta in G. rewrite Z in G.
    enough (M * 0 ^ 2 - 0 <= M * u ^ 2 - first_rest V u) by lra. apply G.
    + intros y. apply @is_derive_minus; [auto_derive; [trivial|ring]|apply rest_der].
    + intros y Y. pose proof (slope_rest V y Y) as W. apply Rabs_le_between in W. lra.
Qed.
(** The numerator of the derivative of the integrand. *)
Definition top V u := u * (f1 (V + u) + f1 (V - u)) - (f (V + u) - f (V - u)).
Lemma top_der V y : is_derive (top V) y (y * (f2 (V + y) - f2 (V - y))).
Proof.
  unfold top. evar_last.
  - apply @is_derive_minus; [|apply @is_derive_minus; [apply right_der, D1|apply (left_der f f1), D1]].
    apply @is_derive_mult; [auto_derive; [trivial|reflexivity]|apply @is_derive_plus; [apply right_der, D2|apply (left_der f1 f2), D2]|]. intros; apply Rmult_comm.
  - unfold minus, plus, opp, mult; cbn. ring.
Qed.
Lemma top_small V u : 0 <= u -> Rabs (top V u) <= M * u ^ 2.
Proof.
  intros U. assert (Z : top V 0 = 0) by (unfold top; rewrite Rplus_0_r, Rminus_0_r; ring). apply Rabs_le. split.
  - assert (G := grows (fun u => top V u + M * u ^ 2) (fun u => u * (f2 (V + u) - f2 (V - u)) + M * (2 * u)) u U). cbv beta in G. rewrite Z in G.
    enough (0 + M * 0 ^ 2 <= top V u + M * u ^ 2) by lra. apply G.
    + intros y. apply @is_derive_plus; [apply top_der|]. auto_derive; [trivial|ring].
    + intros y Y. pose proof (between (V + y)). pose proof (between (V - y)). replace (y * (f2 (V + y) - f2 (V - y)) + M * (2 * y)) with (y * (f2 (V + y) - f2 (V - y) + 2 * M)) by ring. apply Rmult_le_pos; lra.
  - assert (G := grows (fun u => M * u ^ 2 - top V u) (fun u => M * (2 * u) - u * (f2 (V + u) - f2 (V - u))) u U). cbv beta in G. rewrite Z in G.
    enough (M * 0 ^ 2 - 0 <= M * u ^ 2 - top V u) by lra. apply G.
    + intros y. apply @is_derive_minus; [auto_derive; [trivial|ring]|apply top_der].
    + intros y Y. pose proof (between (V + y)). pose proof (between (V - y)). replace (M * (2 * y) - y * (f2 (V + y) - f2 (V - y))) with (y * (2 * M - (f2 (V + y) - f2 (V - y)))) by ring. apply Rmult_le_pos; lra.
Qed.
Lemma pairs_der V u : u <> 0 -> is_derive (pairs f V) u (top V u / u ^ 2).
Proof.
  intros U. unfold pairs. evar_last.
  - apply is_derive_div; [apply @is_derive_minus; [apply right_der, D1|apply (left_der f f1), D1]|auto_derive; [trivial|reflexivity]|exact U].
  - unfold top, minus, plus, opp; cbn. field. exact U.
Qed.
Lemma pairs_even V u : u <> 0 -> pairs f V (- u) = pairs f V u.
Proof. intros U. unfold pairs. replace (V - - u) with (V + u) by ring. replace (V + - u) with (V - u) by ring. field. exact U. Qed.
Lemma pairs_start V u : u <> 0 -> Rabs (pairs f V u - 2 * f1 V) <= M * Rabs u.
Proof.
  assert (P : forall u, 0 < u -> Rabs (pairs f V u - 2 * f1 V) <= M * u).
  { intros x X. replace (pairs f V x - 2 * f1 V) with (first_rest V x / x) by (unfold pairs, first_rest; field; lra).
    rewrite Rabs_div, (Rabs_pos_eq x) by lra. apply Rle_div_l; [assumption|]. eapply Rle_trans; [apply rest_small; lra|]. right. ring. }
  intros U. destruct (Rlt_or_le 0 u) as [X|X]; [rewrite (Rabs_pos_eq u) by lra; now apply P|].
  rewrite <- (pairs_even V u U), (Rabs_left u) by lra. apply P. lra.
Qed.
Lemma pairs_lipschitz V x c : 0 < x -> 0 < c -> Rabs (pairs f V x - pairs f V c) <= M * Rabs (x - c).
Proof.
  intros X C. destruct (MVT_gen (pairs f V) c x (fun u => top V u / u ^ 2)) as [y [Y E]].
  - intros y Y. apply pairs_der. assert (0 < Rmin c x) by (apply Rmin_glb_lt; assumption). lra.
  - intros y Y. apply continuity_pt_filterlim, (ex_derive_continuous (pairs f V) y). eexists. apply pairs_der. assert (0 < Rmin c x) by (apply Rmin_glb_lt; assumption). lra.
  - rewrite E, Rabs_mult. apply Rmult_le_compat_r; [apply Rabs_pos|]. assert (0 < Rmin c x) by (apply Rmin_glb_lt; assumption). assert (0 < y) by lra.
    rewrite Rabs_div, (Rabs_pos_eq (y ^ 2)) by (try (apply pow_le; lra); apply pow_nonzero; lra). apply Rle_div_l; [apply pow_lt; assumption|]. apply top_small. lra.
Qed.
(** The integrand without the hole at 0. *)
Definition filled V u := if Req_EM_T u 0 then 2 * f1 V else pairs f V u.
Lemma filled_pairs V u : u <> 0 -> filled V u = pairs f V u.
Proof. intros U. unfold filled. now destruct (Req_EM_T u 0). Qed.
Lemma ball_R (x y : R) (e : R) : ball x e y -> Rabs (y - x) < e.
Proof. intros H. exact H. Qed.
Lemma R_ball (x y : R) (e : R) : Rabs (y - x) < e -> ball x e y.
Proof. intros H. exact H. Qed.
Lemma filled_continuous V (u : R) : continuous (filled V) u.
Proof.
  destruct (Req_EM_T u 0) as [->|U].
  - apply filterlim_locally. intros eps. assert (MP := m_pos). assert (E0 : 0 < eps / (M + 1)) by (apply Rdiv_lt_0_compat; [apply cond_pos|lra]).
    exists (mkposreal _ E0). intros y Y. apply ball_R in Y. apply R_ball. cbn [pos] in Y. unfold filled. destruct (Req_EM_T 0 0) as [_|N]; [|lra]. destruct (Req_EM_T y 0) as [_|N].
    + replace (2 * f1 V - 2 * f1 V) with 0 by ring. rewrite Rabs_R0. apply cond_pos.
    + eapply Rle_lt_trans; [apply pairs_start, N|]. rewrite Rminus_0_r in Y. apply Rlt_div_r in Y; [|lra]. pose proof (Rabs_pos y). nra.
  - apply continuous_ext_loc with (g := pairs f V).
    + assert (E0 : 0 < Rabs u) by now apply Rabs_pos_lt. exists (mkposreal _ E0). intros y Y. symmetry. apply filled_pairs. intros ->. apply ball_R in Y. cbn [pos] in Y. rewrite Rminus_0_l, Rabs_Ropp in Y. lra.
    + apply (ex_derive_continuous (pairs f V) u). eexists. now apply pairs_der.
Qed.
Lemma filled_int V a b : ex_RInt (filled V) a b.
Proof. apply (@ex_RInt_continuous R_CompleteNormedModule). intros z _. apply filled_continuous. Qed.
Lemma panel V a h : 0 <= a -> 0 < h -> Rabs (RInt (filled V) a (a + 2 * h) - 2 * h * pairs f V (a + h)) <= 2 * h * (M * h).
Proof.
  intros A H. set (c := pairs f V (a + h)).
  assert (E : RInt (filled V) a (a + 2 * h) - 2 * h * c = RInt (fun u => filled V u - c) a (a + 2 * h)).
  { symmetry. apply is_RInt_unique. evar_last; [apply @is_RInt_minus; [apply (@RInt_correct R_CompleteNormedModule), filled_int|apply @is_RInt_const]|].
    unfold minus, plus, opp, scal; cbn. unfold mult; cbn. ring. }
  rewrite E. eapply Rle_trans; [apply (abs_RInt_le_const _ _ _ (M * h))|].
  - lra.
  - apply (@ex_RInt_minus R_NormedModule); [apply filled_int|apply (@ex_RInt_const R_NormedModule)].
  - intros u U. assert (MP := m_pos).
    assert (P : forall u, 0 < u -> a <= u <= a + 2 * h -> Rabs (filled V u - c) <= M * h).
    { intros y Y W. rewrite filled_pairs by lra. eapply Rle_trans; [apply pairs_lipschitz; lra|]. apply Rmult_le_compat_l; [assumption|]. apply Rabs_le. lra. }
    destruct (Req_dec u 0) as [Z|Z]; [|apply P; lra]. assert (a = 0) by lra. unfold filled. destruct (Req_EM_T u 0) as [_|N]; [|lra]. unfold c.
    rewrite Rabs_minus_sym. replace (a + h) with h by lra. eapply Rle_trans; [apply pairs_start; lra|]. rewrite Rabs_pos_eq; lra.
  - right. ring.
Qed.
Lemma midpoint V h q : 0 < h -> Rabs (RInt (filled V) 0 (2 * h * INR q) - nsum q (fun j => 2 * h * pairs f V ((2 * INR j + 1) * h))) <= INR q * (2 * h * (M * h)).
Proof.
  intros H. induction q as [|q IH].
  - cbn [nsum]. replace (2 * h * INR 0) with 0 by (cbn; ring). rewrite RInt_point. unfold zero; cbn. rewrite Rminus_0_r, Rabs_R0. lra.
  - cbn [nsum]. rewrite S_INR. set (a := 2 * h * INR q). replace (2 * h * (INR q + 1)) with (a + 2 * h) by (unfold a; ring). fold a in IH.
    rewrite <- (RInt_Chasles (filled V) 0 a (a + 2 * h)) by apply filled_int. unfold plus; cbn.
    replace ((2 * INR q + 1) * h) with (a + h) by (unfold a; ring). assert (P := panel V a h ltac:(unfold a; pose proof (pos_INR q); nra) H).
    match goal with |- Rabs (?x + ?y - (?z + ?w)) <= _ => replace (x + y - (z + w)) with ((x - z) + (y - w)) by ring end. eapply Rle_trans; [apply Rabs_triang|].
    replace ((INR q + 1) * (2 * h * (M * h))) with (INR q * (2 * h * (M * h)) + 2 * h * (M * h)) by ring. apply Rplus_le_compat; [exact IH|exact P].
Qed.
Lemma pairs_int V L : 0 <= L -> ex_RInt (pairs f V) 0 L /\ RInt (pairs f V) 0 L = RInt (filled V) 0 L.
Proof.
  intros H. assert (E : forall x, Rmin 0 L < x < Rmax 0 L -> filled V x = pairs f V x) by (intros x X; apply filled_pairs; rewrite Rmin_left in X by assumption; lra). split.
  - apply (ex_RInt_ext (filled V)); [exact E|apply filled_int].
  - symmetry. apply RInt_ext, E.
Qed.
End Smooth.

(** ** Regrouping the sum *)
Lemma evens q (g : nat -> R) : (forall j, g (2 * j + 1)%nat = 0) -> nsum (2 * q) g = nsum q (fun j => g (2 * j)%nat).
Proof.
  intros Z. induction q as [|q IH]; [reflexivity|]. replace (2 * S q)%nat with (S (S (2 * q))) by lia. cbn [nsum]. rewrite IH. replace (S (2 * q)) with (2 * q + 1)%nat by lia. rewrite Z. ring.
Qed.
Lemma regroup (g : Z -> R) m t q : (t < m)%nat -> (m <= 2 * q)%nat -> (forall z, (z < 0 \/ Z.of_nat m <= z)%Z -> g z = 0) -> (forall k, Z.even k = true -> g (Z.of_nat t + k)%Z = 0) ->
  nsum m (fun s => g (Z.of_nat s)) = nsum q (fun j => g (Z.of_nat t + (2 * Z.of_nat j + 1))%Z + g (Z.of_nat t - (2 * Z.of_nat j + 1))%Z).
Proof.
  intros T Q Z0 Z2. set (a := (Z.of_nat t - Z.of_nat (2 * q))%Z). set (full := nsum (2 * q + (1 + 2 * q)) (fun i => g (a + Z.of_nat i)%Z)).
  assert (E1 : full = nsum m (fun s => g (Z.of_nat s))).
  { unfold full. replace (2 * q + (1 + 2 * q))%nat with ((2 * q - t) + (m + (2 * q + 1 + t - m)))%nat by lia. rewrite nsum_app, nsum_app. rewrite (nsum_0 (2 * q - t)) by (intros i I; apply Z0; unfold a; lia).
    rewrite (nsum_0 (2 * q + 1 + t - m)) by (intros i I; apply Z0; unfold a; lia). rewrite Rplus_0_l, Rplus_0_r. apply nsum_ext. intros i I. f_equal. unfold a. lia. }
  rewrite <- E1. unfold full. rewrite nsum_app, nsum_app. cbn [nsum]. rewrite nsum_plus, Rplus_0_l.
  replace (g (a + Z.of_nat (2 * q + 0))%Z) with 0 by (symmetry; replace (a + Z.of_nat (2 * q + 0))%Z with (Z.of_nat t + 0)%Z by (unfold a; lia); now apply Z2).
  rewrite Rplus_0_l, Rplus_comm. f_equal.
  - rewrite evens; [apply nsum_ext; intros j J; f_equal; unfold a; lia|]. intros j. replace (a + Z.of_nat (2 * q + (1 + (2 * j + 1))))%Z with (Z.of_nat t + 2 * (Z.of_nat j + 1))%Z by (unfold a; lia). apply Z2. now rewrite Z.even_mul.
  - rewrite <- nsum_rev. rewrite (evens q (fun i => g (a + Z.of_nat (2 * q - 1 - i))%Z)) || idtac.
    + apply nsum_ext. intros j J. f_equal. unfold a. lia.
    + intros j. destruct (le_lt_dec (2 * q) (2 * j + 1)) as [W|W]; [replace (2 * q - 1 - (2 * j + 1))%nat with 0%nat by lia|]; [replace (a + Z.of_nat 0)%Z with (Z.of_nat t + 2 * (- Z.of_nat q))%Z by (unfold a; lia)|replace (a + Z.of_nat (2 * q - 1 - (2 * j + 1)))%Z with (Z.of_nat t + 2 * (- Z.of_nat j - 1))%Z by (unfold a; lia)]; apply Z2; now rewrite Z.even_mul.
Qed.

(** ** The transform *)
Lemma grid_even v h : (forall k, (k < length v)%nat -> nth k v 0 = nth 0 v 0 + INR k * h) -> (2 <= length v)%nat -> even_grid v.
Proof.
  intros G L k K. rewrite (G 1%nat), (G (S k)), (G k) by lia. rewrite (S_INR k). change (INR 1) with 1. match goal with |- Rabs ?x < _ => replace x with 0 by ring end. rewrite Rabs_R0. apply Rinv_0_lt_compat, pow_lt. lra.
Qed.
Lemma kk_is_integral v i n f M F h q : (2 <= length v)%nat -> length i = length v -> (2 <= n)%Z -> 0 < h -> (length v <= 2 * q)%nat ->
  (forall k, (k < length v)%nat -> nth k v 0 = nth 0 v 0 + INR k * h /\ nth k i 0 = nth k v 0 + f (nth k v 0)) ->
  smooth f M -> (forall x, Rabs (f x) <= F) -> (forall x, x < nth 0 v 0 \/ nth (length v - 1) v 0 < x -> f x = 0) ->
  exists r, kk_trans v i n = Ok r /\ length r = length v /\
    forall t, (t < length v)%nat -> ex_RInt (pairs f (nth t v 0)) 0 (2 * h * INR q) /\
      Rabs (nth t r 0 - kk_integral f (nth t v 0) (2 * h * INR q)) <= M * (2 * h * INR q) * h / PI + 6 * F / IZR n ^ 2.
Proof.
  intros V2 LI N H Q G [f1 [f2 [D1 [D2 B]]]] BF OUT. destruct (kk_length v i n LI V2 ltac:(lia)) as [r [E LR]]; [apply (grid_even v h); [intros k K; apply G, K|assumption]|].
  exists r. split; [exact E|]. split; [exact LR|]. intros t T. set (V := nth t v 0). set (L := 2 * h * INR q).
  assert (L0 : 0 <= L) by (unfold L; pose proof (pos_INR q); nra). destruct (pairs_int f f1 f2 M D1 D2 B V L L0) as [EX EI]. split; [exact EX|].
  assert (PP := PI_RGT_0). assert (PAD := kk_padding v i n r t F LI N E T). match type of PAD with _ -> Rabs (_ - ?s) <= _ => set (sum := s) in * end.
  assert (PAD' : Rabs (nth t r 0 - sum) <= 6 * F / IZR n ^ 2). { apply PAD. intros s S. rewrite (proj2 (G s S)). replace (nth s v 0 + f (nth s v 0) - nth s v 0) with (f (nth s v 0)) by ring. apply BF. }
  assert (MID := midpoint f f1 f2 M D1 D2 B V h q H). fold L in MID. match type of MID with Rabs (_ - ?s) <= _ => set (mid := s) in * end.
  assert (SM : sum = mid / PI).
  { unfold sum, mid. set (g := fun z => f (nth 0 v 0 + IZR z * h) * open_kernel (z - Z.of_nat t)).
    rewrite (nsum_ext (length v) _ (fun s => g (Z.of_nat s))).
    2:{ intros s S. unfold g. destruct (G s S) as [GV GI]. rewrite GI. replace (Z.of_nat t - Z.of_nat s)%Z with (- (Z.of_nat s - Z.of_nat t))%Z by ring. rewrite open_opp, <- INR_IZR_INZ, <- GV. ring. }
    assert (LAST : nth (length v - 1) v 0 = nth 0 v 0 + IZR (Z.of_nat (length v) - 1) * h). { rewrite (proj1 (G (length v - 1)%nat ltac:(lia))), INR_IZR_INZ. do 3 f_equal. lia. }
    rewrite (regroup g (length v) t q T Q).
    - unfold Rdiv at 1. rewrite (Rmult_comm _ (/ PI)), <- nsum_scal. apply nsum_ext. intros j J. unfold g.
      assert (VT : V = nth 0 v 0 + IZR (Z.of_nat t) * h) by (unfold V; rewrite (proj1 (G t T)), INR_IZR_INZ; reflexivity).
      replace (Z.of_nat t + (2 * Z.of_nat j + 1) - Z.of_nat t)%Z with (2 * Z.of_nat j + 1)%Z by ring. replace (Z.of_nat t - (2 * Z.of_nat j + 1) - Z.of_nat t)%Z with (- (2 * Z.of_nat j + 1))%Z by ring. rewrite open_opp.
      assert (JR : IZR (2 * Z.of_nat j + 1) = 2 * INR j + 1) by (rewrite plus_IZR, mult_IZR, <- INR_IZR_INZ; reflexivity).
      rewrite plus_IZR, minus_IZR, JR. unfold open_kernel. replace (Z.even (2 * Z.of_nat j + 1)) with false by (rewrite Z.even_add, Z.even_mul; reflexivity). rewrite JR. unfold pairs.
      replace (nth 0 v 0 + (IZR (Z.of_nat t) + (2 * INR j + 1)) * h) with (V + (2 * INR j + 1) * h) by (rewrite VT; ring).
      replace (nth 0 v 0 + (IZR (Z.of_nat t) - (2 * INR j + 1)) * h) with (V - (2 * INR j + 1) * h) by (rewrite VT; ring).
      pose proof (pos_INR j). field. repeat split; lra.
    - intros z W. unfold g. rewrite OUT; [ring|]. destruct W as [W|W]; [left; assert (IZR z <= -1) by (apply IZR_le; lia); nra|right].
      rewrite LAST. assert (IZR (Z.of_nat (length v) - 1) < IZR z) by (apply IZR_lt; lia). nra.
    - intros k K. unfold g. replace (Z.of_nat t + k - Z.of_nat t)%Z with k by ring. unfold open_kernel. rewrite K. ring. }
  unfold kk_integral. rewrite EI. replace (nth t r 0 - RInt (filled f f1 V) 0 L / PI) with ((nth t r 0 - sum) - (RInt (filled f f1 V) 0 L - mid) / PI) by (rewrite SM; field; lra).
  eapply Rle_trans; [apply Rabs_triang|]. rewrite Rabs_Ropp, Rplus_comm. apply Rplus_le_compat; [|exact PAD']. rewrite Rabs_div, (Rabs_pos_eq PI) by lra.
  apply Rmult_le_compat_r; [left; now apply Rinv_0_lt_compat|]. eapply Rle_trans; [exact MID|]. right. unfold L. ring.
Qed.
