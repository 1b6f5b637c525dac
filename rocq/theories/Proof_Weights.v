(** Photon-assisted tunnelling weights: sums of squared coefficients over index vectors. *)
From Coq Require Import List ZArith Lia Bool Arith Reals Lra.
From Coquelicot Require Import Complex.
From Verif Require Import Base Sums Round Bessel Model_QtCurrent Spec_QtCurrent Spec_QtApi Proof_QtCurrent
  Proof_QtCurrent2 Proof_QtSym Proof_QtApi Proof_QtApi2 Proof_QtWit Proof_Bessel.
Import ListNotations.
Open Scope R_scope.
Local Notation length := List.length.

(** ** Bessel functions of integer order *)
Lemma J_recZ n x : x * (besselZ besselJ (n - 1) x + besselZ besselJ (n + 1) x) = 2 * IZR n * besselZ besselJ n x.
Proof.
  destruct (Z_lt_le_dec 0 n) as [H|H].
  - unfold besselZ. destruct (Z.ltb_spec (n - 1) 0); [lia|]. destruct (Z.ltb_spec (n + 1) 0); [lia|]. destruct (Z.ltb_spec n 0); [lia|].
    replace (Z.to_nat (n + 1)) with (S (S (Z.to_nat (n - 1)))) by lia. replace (Z.to_nat n) with (S (Z.to_nat (n - 1))) by lia. rewrite J_rec. f_equal. f_equal. rewrite INR_IZR_INZ. f_equal. lia.
  - destruct (Z.eq_dec n 0) as [->|N0].
    + unfold besselZ. cbn -[besselJ]. change (Pos.to_nat 1) with 1%nat. ring.
    + unfold besselZ. destruct (Z.ltb_spec (n - 1) 0); [|lia]. destruct (Z.ltb_spec n 0); [|lia].
      set (m := Z.to_nat (- n - 1)). replace (Z.to_nat (- (n - 1))) with (S (S m)) by lia. replace (Z.to_nat (- n)) with (S m) by lia.
      assert (E : (if (n + 1 <? 0)%Z then (-1) ^ Z.to_nat (- (n + 1)) * besselJ (Z.to_nat (- (n + 1))) x else besselJ (Z.to_nat (n + 1)) x) = (-1) ^ m * besselJ m x).
      { destruct (Z.ltb_spec (n + 1) 0). { now replace (Z.to_nat (- (n + 1))) with m by lia. } replace m with 0%nat by lia. replace (Z.to_nat (n + 1)) with 0%nat by lia. simpl. ring. }
      rewrite E. assert (R := J_rec m x). replace (IZR n) with (- INR (S m)) by (rewrite INR_IZR_INZ, <- opp_IZR; f_equal; lia). simpl pow.
      replace (x * (-1 * (-1 * (-1) ^ m) * besselJ (S (S m)) x + (-1) ^ m * besselJ m x)) with ((-1) ^ m * (x * (besselJ m x + besselJ (S (S m)) x))) by ring. rewrite R. ring.
Qed.
Lemma besselZ_sq n x : besselZ besselJ n x ^ 2 = besselJ (Z.abs_nat n) x ^ 2.
Proof.
  unfold besselZ. destruct (Z.ltb_spec n 0).
  - replace (Z.to_nat (- n)) with (Z.abs_nat n) by lia. rewrite Rpow_mult_distr, <- pow_mult. rewrite Nat.mul_comm, pow_mult. replace ((-1) ^ 2) with 1 by ring. rewrite pow1. ring.
  - now replace (Z.to_nat n) with (Z.abs_nat n) by lia.
Qed.
Lemma rsum_app {A} (l1 l2 : list A) f : rsum (l1 ++ l2) f = rsum l1 f + rsum l2 f.
Proof. induction l1 as [|a l1 IH]; cbn [app rsum]; [ring|rewrite IH; ring]. Qed.
Lemma sym_S b : sym (S b) = (- Z.of_nat (S b))%Z :: sym b ++ [Z.of_nat (S b)].
Proof.
  unfold sym. rewrite (zrange_cons (- Z.of_nat (S b))) by lia. f_equal. replace (- Z.of_nat (S b) + 1)%Z with (- Z.of_nat b)%Z by lia. replace (Z.of_nat (S b) + 1)%Z with (Z.of_nat b + 1 + 1)%Z by lia. rewrite zrange_snoc by lia. do 2 f_equal. lia.
Qed.
Lemma rsum_sym_S b f : rsum (sym (S b)) f = rsum (sym b) f + (f (Z.of_nat (S b)) + f (- Z.of_nat (S b))%Z).
Proof. rewrite sym_S. cbn [rsum]. rewrite rsum_app. cbn [rsum]. ring. Qed.
Lemma rsum_sym_0 f : rsum (sym 0) f = f 0%Z. Proof. change (sym 0) with [0%Z]. cbn [rsum]. ring. Qed.
Lemma squaresZ b x : rsum (sym b) (fun n => besselZ besselJ n x ^ 2) = squares b x.
Proof.
  induction b as [|b IH]. { rewrite rsum_sym_0. reflexivity. }
  rewrite rsum_sym_S, IH, !besselZ_sq. cbn [squares]. replace (Z.abs_nat (Z.of_nat (S b))) with (S b) by lia. replace (Z.abs_nat (- Z.of_nat (S b))) with (S b) by lia. ring.
Qed.

(** ** Sums *)
Lemma rsum_le {A} (l : list A) f g : (forall x, In x l -> f x <= g x) -> rsum l f <= rsum l g.
Proof. induction l as [|a l IH]; intros H; cbn [rsum]; [lra|]. apply Rplus_le_compat; [apply H; now left|]. apply IH. intros; apply H; now right. Qed.
Lemma rsum_nonneg {A} (l : list A) f : (forall x, In x l -> 0 <= f x) -> 0 <= rsum l f.
Proof. intros H. replace 0 with (rsum l (fun _ => 0)); [now apply rsum_le|]. clear. induction l as [|a l IH]; cbn [rsum]; [reflexivity|]. rewrite IH. ring. Qed.
Lemma rsum_scal {A} (l : list A) c f : rsum l (fun x => c * f x) = c * rsum l f.
Proof. induction l as [|a l IH]; cbn [rsum]; [ring|rewrite IH; ring]. Qed.
Lemma rsum_abs {A} (l : list A) f : Rabs (rsum l f) <= rsum l (fun x => Rabs (f x)).
Proof. induction l as [|a l IH]; cbn [rsum]; [rewrite Rabs_R0; lra|]. eapply Rle_trans; [apply Rabs_triang|lra]. Qed.
Lemma Cmod_csum {A} (l : list A) f : Cmod (csum l f) <= rsum l (fun x => Cmod (f x)).
Proof. induction l as [|a l IH]; cbn [csum rsum]; [rewrite Cmod_0; lra|]. eapply Rle_trans; [apply Cmod_triangle|lra]. Qed.

(** ** Weights *)
(** The sum of the squared magnitudes of the coefficients of a tone. *)
Definition weight (t : tone) : R := rsum (sym (t_b t)) (fun k => Cmod (t_C t k) ^ 2).
Lemma weight_nonneg t : 0 <= weight t. Proof. apply rsum_nonneg. intros. apply pow2_ge_0. Qed.
Fixpoint weights (ts : list tone) : R := match ts with [] => 1 | t :: ts => weight t * weights ts end.
Lemma weights_nonneg ts : 0 <= weights ts.
Proof. induction ts as [|t ts IH]; cbn [weights]; [lra|]. apply Rmult_le_pos; [apply weight_nonneg|assumption]. Qed.
Lemma weights_le_1 ts : (forall t, In t ts -> weight t <= 1) -> weights ts <= 1.
Proof.
  induction ts as [|t ts IH]; intros H; cbn [weights]; [lra|]. assert (W := H t (or_introl eq_refl)). pose proof (weight_nonneg t). assert (I := IH (fun t' E => H t' (or_intror E))). pose proof (weights_nonneg ts). nra.
Qed.
(** Shifted products of coefficients. *)
Lemma shifted_weight t a : rsum (sym (t_b t)) (fun k => Cmod (t_C t k) * Cmod (cut (t_b t) (t_C t) (k + a))) <= weight t.
Proof.
  set (b := t_b t). set (c := fun k => Cmod (cut b (t_C t) k)).
  assert (C2 : rsum (sym b) (fun k => c (k + a)%Z ^ 2) <= weight t).
  { assert (G : forall l l' : list Z, NoDup l -> (forall k, In k l -> In k l') -> forall f : Z -> R, (forall k, 0 <= f k) -> rsum l f <= rsum l' f).
    { induction l as [|x l IH]; intros l' ND Hin f Hf. { apply rsum_nonneg. auto. }
      inversion ND; subst. destruct (in_split x l' (Hin x (or_introl eq_refl))) as [l1 [l2 ->]]. cbn [rsum]. rewrite rsum_app. cbn [rsum].
      assert (Q : rsum l f <= rsum (l1 ++ l2) f). { apply IH; [assumption| |assumption]. intros k Hk. assert (K := Hin k (or_intror Hk)). apply in_app_or in K. apply in_or_app. destruct K as [K|[K|K]]; [now left|subst; contradiction|now right]. }
      rewrite rsum_app in Q. lra. }
    unfold weight. fold b.
    assert (E : rsum (sym b) (fun k => c (k + a)%Z ^ 2) = rsum (filter (fun k => within b k) (map (fun k => (k + a)%Z) (sym b))) (fun k => Cmod (t_C t k) ^ 2)).
    { generalize (sym b). induction l as [|k l IH]; cbn [rsum map filter]; [reflexivity|]. rewrite IH. unfold c at 1. rewrite cut_within. destruct (within b (k + a)); cbn [rsum]; [reflexivity|]. rewrite Cmod_0. ring. }
    rewrite E. apply G.
    - apply NoDup_filter. apply FinFun.Injective_map_NoDup; [intros x y; lia|apply sym_NoDup].
    - intros k Hk. apply filter_In in Hk. destruct Hk as [_ Hk]. apply within_spec in Hk. now apply in_sym.
    - intros; apply pow2_ge_0. }
  apply Rle_trans with (rsum (sym b) (fun k => / 2 * Cmod (t_C t k) ^ 2 + / 2 * c (k + a)%Z ^ 2)).
  { apply rsum_le. intros k _. fold (c (k + a)%Z). pose proof (pow2_ge_0 (Cmod (t_C t k) - c (k + a)%Z)). nra. }
  rewrite rsum_plus, !rsum_scal. change (rsum (sym b) (fun k => Cmod (t_C t k) ^ 2)) with (weight t). lra.
Qed.
Lemma Cmod_Cconj z : Cmod (Cconj z) = Cmod z.
Proof. unfold Cmod, Cconj. cbn [fst snd]. f_equal. ring. Qed.
Lemma in_box_nil ks : in_box [] ks <-> ks = []. Proof. split; [inversion 1; reflexivity|intros ->; constructor]. Qed.
Lemma rs_bound ts : forall a rk M, length a = length ts -> 0 <= M -> (forall ks, in_box (map t_b ts) ks -> Cmod (rk ks) <= M) -> Cmod (rs_sum ts a rk) <= weights ts * M.
Proof.
  induction ts as [|t ts IH]; intros a rk M L HM H.
  - destruct a; [|discriminate]. cbn [rs_sum weights]. rewrite Rmult_1_l. apply H. constructor.
  - destruct a as [|a0 a]; [discriminate|]. cbn [rs_sum weights]. eapply Rle_trans; [apply Cmod_csum|].
    eapply Rle_trans. { apply (rsum_le _ _ (fun k => (weights ts * M) * (Cmod (t_C t k) * Cmod (cut (t_b t) (t_C t) (k + a0))))). intros k Hk. rewrite !Cmod_mult, Cmod_Cconj.
      rewrite (Rmult_comm (weights ts * M)). apply Rmult_le_compat_l; [apply Rmult_le_pos; apply Cmod_ge_0|]. apply IH; [now injection L| |]; [assumption|]. intros ks K. apply H. constructor; [now apply in_sym|assumption]. }
    rewrite rsum_scal. replace (weight t * weights ts * M) with (weights ts * M * weight t) by ring. apply Rmult_le_compat_l; [apply Rmult_le_pos; [apply weights_nonneg|assumption]|apply shifted_weight].
Qed.
(** Without shift: the sum of the responses with their weights. *)
Lemma rs_zero t ts a rk : rs_sum (t :: ts) (0%Z :: a) rk = csum (sym (t_b t)) (fun k => Cmult (RtoC (Cmod (t_C t k) ^ 2)) (rs_sum ts a (fun ks => rk (k :: ks)))).
Proof.
  cbn [rs_sum]. apply csum_ext. intros k Hk. rewrite Z.add_0_r. f_equal. rewrite cut_within. apply in_sym in Hk. apply within_spec in Hk. rewrite Hk, <- Cmod2. apply injective_projections; cbn; ring.
Qed.
