(** Rounding errors of sums and products of complex numbers, and of loops of them. *)
From Coq Require Import List ZArith Lia Bool Arith Reals Lra Psatz Permutation.
From Coquelicot Require Import Rcomplements Complex.
From Flocq Require Import Core Relative.
From Verif Require Import Base Sums Round Model_QtCurrent Spec_QtCurrent Spec_QtApi Model_QtFloat Model_QtRound Spec_Rounding.
Import ListNotations.
Local Notation length := List.length.
Open Scope R_scope.

Definition ue : R := / 2 ^ 53.
Lemma ue_pos : 0 < ue. Proof. unfold ue. apply Rinv_0_lt_compat. apply pow_lt. lra. Qed.
Lemma ue_small : ue <= / 1000. Proof. unfold ue. apply Rinv_le_contravar; [lra|]. simpl. lra. Qed.
Lemma rnd53_err x : Rabs (rnd53 x - x) <= ue * Rabs x.
Proof.
  unfold rnd53. eapply Rle_trans; [apply (relative_error_N_FLX radix2 53 ltac:(lia) (fun t => negb (Z.even t)))|].
  apply Rmult_le_compat_r; [apply Rabs_pos|]. replace (-53 + 1)%Z with (-52)%Z by lia. unfold ue. simpl. lra.
Qed.
Lemma rnd53_opp x : rnd53 (- x) = - rnd53 x. Proof. apply round_NE_opp. Qed.

Lemma Cmod_sq z : Cmod z * Cmod z = Re z * Re z + Im z * Im z.
Proof. unfold Cmod, Re, Im. rewrite sqrt_sqrt; [ring|]. nra. Qed.
Lemma Cmod_le z c : 0 <= c -> Re z * Re z + Im z * Im z <= c * c -> Cmod z <= c.
Proof. intros Hc H. rewrite <- Cmod_sq in H. pose proof (Cmod_ge_0 z). nra. Qed.
Lemma abs_sq x : Rabs x * Rabs x = x * x. Proof. rewrite <- Rabs_mult. apply Rabs_pos_eq. nra. Qed.
Lemma sq_le a b : Rabs a <= b -> a * a <= b * b.
Proof. intros H. rewrite <- abs_sq. pose proof (Rabs_pos a). nra. Qed.

Lemma cadd_err z w : Cmod (Cminus (cadd_r z w) (Cplus z w)) <= ue * Cmod (Cplus z w).
Proof.
  pose proof ue_pos. apply Cmod_le; [apply Rmult_le_pos; [lra|apply Cmod_ge_0]|].
  replace (ue * Cmod (Cplus z w) * (ue * Cmod (Cplus z w))) with (ue * ue * (Cmod (Cplus z w) * Cmod (Cplus z w))) by ring.
  rewrite Cmod_sq. unfold cadd_r, Cminus, Cplus, Copp, Re, Im. cbn [fst snd].
  pose proof (sq_le _ _ (rnd53_err (fst z + fst w))) as A. pose proof (sq_le _ _ (rnd53_err (snd z + snd w))) as B.
  replace (ue * Rabs (fst z + fst w) * (ue * Rabs (fst z + fst w))) with (ue * ue * ((fst z + fst w) * (fst z + fst w))) in A by (rewrite <- (abs_sq (fst z + fst w)); ring).
  replace (ue * Rabs (snd z + snd w) * (ue * Rabs (snd z + snd w))) with (ue * ue * ((snd z + snd w) * (snd z + snd w))) in B by (rewrite <- (abs_sq (snd z + snd w)); ring).
  unfold Rminus in A, B. lra.
Qed.
Lemma two_products p q : Rabs (rnd53 (rnd53 p + rnd53 q) - (p + q)) <= (2 * ue + ue * ue) * (Rabs p + Rabs q).
Proof.
  pose proof ue_pos. pose proof (rnd53_err p) as A. pose proof (rnd53_err q) as B. pose proof (rnd53_err (rnd53 p + rnd53 q)) as D.
  pose proof (Rabs_pos p). pose proof (Rabs_pos q).
  assert (E : Rabs (rnd53 p + rnd53 q) <= (1 + ue) * (Rabs p + Rabs q)).
  { replace (rnd53 p + rnd53 q) with ((p + (rnd53 p - p)) + (q + (rnd53 q - q))) by ring.
    eapply Rle_trans; [apply Rabs_triang|]. pose proof (Rabs_triang p (rnd53 p - p)). pose proof (Rabs_triang q (rnd53 q - q)). lra. }
  replace (rnd53 (rnd53 p + rnd53 q) - (p + q)) with ((rnd53 (rnd53 p + rnd53 q) - (rnd53 p + rnd53 q)) + ((rnd53 p - p) + (rnd53 q - q))) by ring.
  eapply Rle_trans; [apply Rabs_triang|]. pose proof (Rabs_triang (rnd53 p - p) (rnd53 q - q)).
  apply Rmult_le_compat_l with (r := ue) in E; [|lra]. nra.
Qed.
Lemma cauchy a b c d : Rabs (a * c) + Rabs (b * d) <= sqrt (a * a + b * b) * sqrt (c * c + d * d).
Proof.
  assert (P1 : 0 <= a * a + b * b) by nra. assert (P2 : 0 <= c * c + d * d) by nra.
  rewrite <- sqrt_mult by assumption. apply Rsqr_incr_0_var; [|apply sqrt_pos]. unfold Rsqr. rewrite sqrt_sqrt by (now apply Rmult_le_pos).
  rewrite !Rabs_mult. assert (Ea := abs_sq a). assert (Eb := abs_sq b). assert (Ec := abs_sq c). assert (Ed := abs_sq d).
  rewrite <- Ea, <- Eb, <- Ec, <- Ed. set (x := Rabs a). set (y := Rabs b). set (z := Rabs c). set (t := Rabs d).
  pose proof (Rle_0_sqr (x * t - y * z)) as Q. unfold Rsqr in Q. lra.
Qed.
Lemma cmul_err z w : Cmod (Cminus (cmul_r z w) (Cmult z w)) <= 3 * ue * (Cmod z * Cmod w).
Proof.
  pose proof ue_pos as U. pose proof ue_small as US. destruct z as [a b], w as [c d].
  set (m := Cmod (a, b) * Cmod (c, d)). assert (M : 0 <= m) by (apply Rmult_le_pos; apply Cmod_ge_0).
  assert (E1 : Rabs (rnd53 (rnd53 (a * c) - rnd53 (b * d)) - (a * c - b * d)) <= (2 * ue + ue * ue) * m).
  { unfold Rminus at 2 3. rewrite <- rnd53_opp. eapply Rle_trans; [apply two_products|]. rewrite Rabs_Ropp.
    apply Rmult_le_compat_l; [nra|]. unfold m, Cmod. cbn [fst snd]. replace (a ^ 2) with (a * a) by ring; replace (b ^ 2) with (b * b) by ring; replace (c ^ 2) with (c * c) by ring; replace (d ^ 2) with (d * d) by ring. apply cauchy. }
  assert (E2 : Rabs (rnd53 (rnd53 (a * d) + rnd53 (b * c)) - (a * d + b * c)) <= (2 * ue + ue * ue) * m).
  { eapply Rle_trans; [apply two_products|]. apply Rmult_le_compat_l; [nra|]. unfold m, Cmod. cbn [fst snd]. replace (a ^ 2) with (a * a) by ring; replace (b ^ 2) with (b * b) by ring; replace (c ^ 2) with (c * c) by ring; replace (d ^ 2) with (d * d) by ring.
    rewrite (Rplus_comm (c * c)). apply cauchy. }
  apply Cmod_le; [nra|]. unfold cmul_r, Cminus, Cplus, Copp, Cmult, Re, Im. cbn [fst snd].
  apply sq_le in E1, E2. unfold Rminus in *.
  assert (K : 2 * ((2 * ue + ue * ue) * (2 * ue + ue * ue)) <= 3 * ue * (3 * ue)).
  { replace (2 * ((2 * ue + ue * ue) * (2 * ue + ue * ue))) with (ue * ue * (2 * ((2 + ue) * (2 + ue)))) by ring.
    replace (3 * ue * (3 * ue)) with (ue * ue * 9) by ring. apply Rmult_le_compat_l; nra. }
  assert (K2 : 2 * ((2 * ue + ue * ue) * (2 * ue + ue * ue)) * (m * m) <= 3 * ue * (3 * ue) * (m * m)) by (apply Rmult_le_compat_r; [nra|assumption]).
  lra.
Qed.

(** ** Errors relative to the size *)
Definition ef := error_factor.
Lemma ef_0 : ef 0 = 0. Proof. unfold ef, error_factor. simpl. ring. Qed.
Lemma ef_1 K : 1 + ef K = (1 + 3 * ue) ^ K. Proof. unfold ef, error_factor, ue, Rdiv. ring. Qed.
Lemma ef_S K : 1 + ef (S K) = (1 + 3 * ue) * (1 + ef K). Proof. rewrite !ef_1. reflexivity. Qed.
Lemma ef_plus K L : 1 + ef (K + L) = (1 + ef K) * (1 + ef L). Proof. rewrite !ef_1. apply pow_add. Qed.
Lemma ef_le K L : (K <= L)%nat -> ef K <= ef L.
Proof. intros H. assert (1 + ef K <= 1 + ef L); [|lra]. rewrite !ef_1. apply Rle_pow; [pose proof ue_pos; lra|assumption]. Qed.
Lemma ef_pos K : 0 <= ef K. Proof. rewrite <- ef_0. apply ef_le. lia. Qed.

Definition rel (K : nat) (x y s : C) : Prop := Im s = 0 /\ Cmod y <= Re s /\ Cmod (Cminus x y) <= ef K * Re s.
Lemma rel_conv K K' x y y' s s' : rel K x y s -> y = y' -> s = s' -> (K <= K')%nat -> rel K' x y' s'.
Proof.
  intros (H1 & H2 & H3) -> -> HK. split; [assumption|split; [assumption|]]. eapply Rle_trans; [exact H3|].
  apply Rmult_le_compat_r; [|now apply ef_le]. pose proof (Cmod_ge_0 y'). lra.
Qed.
Lemma rel_exact x : rel 0 x x (size x).
Proof.
  split; [reflexivity|]. split; [unfold size; cbn [Re RtoC fst]; lra|].
  replace (Cminus x x) with (RtoC 0) by ring. rewrite Cmod_0, ef_0. lra.
Qed.
Lemma rel_zero K : rel K (RtoC 0) (RtoC 0) (RtoC 0).
Proof. apply rel_conv with 0%nat (RtoC 0) (size (RtoC 0)); [apply rel_exact|reflexivity|unfold size; now rewrite Cmod_0|lia]. Qed.
Lemma rel_size K x y s : rel K x y s -> 0 <= Re s /\ Cmod x <= (1 + ef K) * Re s.
Proof.
  intros (H1 & H2 & H3). pose proof (Cmod_ge_0 y). split; [lra|].
  replace x with (Cplus y (Cminus x y)) by ring. eapply Rle_trans; [apply Cmod_triangle|]. lra.
Qed.
Lemma rel_add K x1 x2 y1 y2 s1 s2 : rel K x1 y1 s1 -> rel K x2 y2 s2 -> rel (S K) (cadd_r x1 x2) (Cplus y1 y2) (Cplus s1 s2).
Proof.
  intros R1 R2. destruct (rel_size _ _ _ _ R1) as [P1 X1]. destruct (rel_size _ _ _ _ R2) as [P2 X2].
  destruct R1 as (H1 & H2 & H3). destruct R2 as (G1 & G2 & G3). pose proof (ef_pos K) as EK. pose proof ue_pos as U.
  change (Re (Cplus s1 s2)) with (Re s1 + Re s2). split; [change (Im s1 + Im s2 = 0); lra|]. split.
  { eapply Rle_trans; [apply Cmod_triangle|]. change (Re (Cplus s1 s2)) with (Re s1 + Re s2). lra. }
  change (Re (Cplus s1 s2)) with (Re s1 + Re s2). set (S := Re s1 + Re s2).
  replace (Cminus (cadd_r x1 x2) (Cplus y1 y2)) with
    (Cplus (Cminus (cadd_r x1 x2) (Cplus x1 x2)) (Cplus (Cminus x1 y1) (Cminus x2 y2))) by ring.
  eapply Rle_trans; [apply Cmod_triangle|]. pose proof (cadd_err x1 x2) as A.
  pose proof (Cmod_triangle (Cminus x1 y1) (Cminus x2 y2)) as B.
  pose proof (Cmod_triangle x1 x2) as D. assert (SP : 0 <= S) by (unfold S; lra).
  assert (D' : Cmod (Cplus x1 x2) <= (1 + ef K) * S) by (unfold S; lra).
  assert (A' : ue * Cmod (Cplus x1 x2) <= ue * ((1 + ef K) * S)) by (apply Rmult_le_compat_l; lra).
  assert (B' : Cmod (Cplus (Cminus x1 y1) (Cminus x2 y2)) <= ef K * S) by (unfold S; lra).
  replace (ef (Datatypes.S K)) with ((1 + 3 * ue) * (1 + ef K) - 1) by (rewrite <- ef_S; ring).
  assert (0 <= ue * ((1 + ef K) * S)) by (apply Rmult_le_pos; [lra|apply Rmult_le_pos; lra]). nra.
Qed.
Lemma rel_mul K1 K2 x1 x2 y1 y2 s1 s2 : rel K1 x1 y1 s1 -> rel K2 x2 y2 s2 -> rel (K1 + K2 + 1) (cmul_r x1 x2) (Cmult y1 y2) (Cmult s1 s2).
Proof.
  intros R1 R2. destruct (rel_size _ _ _ _ R1) as [P1 X1]. destruct (rel_size _ _ _ _ R2) as [P2 X2].
  destruct R1 as (H1 & H2 & H3). destruct R2 as (G1 & G2 & G3). pose proof (ef_pos K1) as E1. pose proof (ef_pos K2) as E2. pose proof ue_pos as U.
  assert (ES : Re (Cmult s1 s2) = Re s1 * Re s2) by (change (Re s1 * Re s2 - Im s1 * Im s2 = Re s1 * Re s2); rewrite H1; ring).
  split; [change (Re s1 * Im s2 + Im s1 * Re s2 = 0); rewrite H1, G1; ring|]. rewrite ES. split.
  { rewrite Cmod_mult. apply Rmult_le_compat; try apply Cmod_ge_0; assumption. }
  replace (Cminus (cmul_r x1 x2) (Cmult y1 y2)) with
    (Cplus (Cminus (cmul_r x1 x2) (Cmult x1 x2)) (Cplus (Cmult (Cminus x1 y1) x2) (Cmult y1 (Cminus x2 y2)))) by ring.
  eapply Rle_trans; [apply Cmod_triangle|]. pose proof (cmul_err x1 x2) as A.
  pose proof (Cmod_triangle (Cmult (Cminus x1 y1) x2) (Cmult y1 (Cminus x2 y2))) as B. rewrite !Cmod_mult in B.
  replace (ef (K1 + K2 + 1)) with ((1 + 3 * ue) * ((1 + ef K1) * (1 + ef K2)) - 1).
  2:{ rewrite <- ef_plus, <- ef_S. replace (K1 + K2 + 1)%nat with (S (K1 + K2)) by lia. ring. }
  assert (B1 : Cmod (Cminus x1 y1) * Cmod x2 <= (ef K1 * Re s1) * ((1 + ef K2) * Re s2)) by (apply Rmult_le_compat; try apply Cmod_ge_0; assumption).
  assert (B2 : Cmod y1 * Cmod (Cminus x2 y2) <= Re s1 * (ef K2 * Re s2)) by (apply Rmult_le_compat; try apply Cmod_ge_0; assumption).
  assert (B3 : Cmod x1 * Cmod x2 <= ((1 + ef K1) * Re s1) * ((1 + ef K2) * Re s2)) by (apply Rmult_le_compat; try apply Cmod_ge_0; assumption).
  assert (B4 : 3 * ue * (Cmod x1 * Cmod x2) <= 3 * ue * (((1 + ef K1) * Re s1) * ((1 + ef K2) * Re s2))) by (apply Rmult_le_compat_l; lra).
  lra.
Qed.
Lemma Cmod_conj z : Cmod (Cconj z) = Cmod z.
Proof. unfold Cmod, Cconj. cbn [fst snd]. f_equal. ring. Qed.
Lemma rel_conj K x y s : rel K x y s -> rel K (Cconj x) (Cconj y) (Cconj s).
Proof.
  intros (H1 & H2 & H3). split; [change (- Im s = 0); lra|]. rewrite <- Cconj_minus, !Cmod_conj. split; assumption.
Qed.
(** Products with numbers of modulus 1 that only move the components. *)
Definition turn (z : C) : C := (Im z, - Re z).
Lemma rel_turn K x y s : rel K x y s -> rel K (turn x) (turn y) s.
Proof.
  intros (H1 & H2 & H3). split; [assumption|].
  assert (T : forall z, Cmod (turn z) = Cmod z) by (intros z; unfold Cmod, turn, Re, Im; cbn [fst snd]; f_equal; ring).
  replace (Cminus (turn x) (turn y)) with (turn (Cminus x y)) by (unfold turn, Cminus, Cplus, Copp, Re, Im; cbn [fst snd]; f_equal; ring).
  rewrite !T. split; assumption.
Qed.
Lemma rel_im K x y s : rel K x y s -> rel K (RtoC (Im x)) (RtoC (Im y)) s.
Proof.
  intros (H1 & H2 & H3). assert (T : forall z, Cmod (RtoC (Im z)) <= Cmod z).
  { intros z. apply Cmod_le; [apply Cmod_ge_0|]. rewrite Cmod_sq. unfold RtoC, Re, Im. cbn [fst snd]. nra. }
  split; [assumption|]. split; [eapply Rle_trans; [apply T|assumption]|].
  replace (Cminus (RtoC (Im x)) (RtoC (Im y))) with (RtoC (Im (Cminus x y))) by (unfold RtoC, Cminus, Cplus, Copp, Im; cbn [fst snd]; f_equal; ring).
  eapply Rle_trans; [apply T|assumption].
Qed.
Lemma rel_combine K z p m yp ym sp sm i : rel K (p i) yp sp -> rel K (m i) ym sm ->
  rel (K + 1) (combine_r z p m i) (if z then RtoC (Im yp) else (Im yp + Im ym, - (Re yp - Re ym))) (if z then sp else Cplus sp sm).
Proof.
  intros Rp Rm. unfold combine_r. destruct z.
  - eapply rel_conv; [apply rel_im, Rp|reflexivity|reflexivity|lia].
  - assert (A := rel_add _ _ _ _ _ _ _ (rel_turn _ _ _ _ Rp) (rel_turn _ _ _ _ (rel_turn _ _ _ _ (rel_turn _ _ _ _ (rel_conj _ _ _ _ Rm))))).
    replace (cadd_r (turn (p i)) (turn (turn (turn (Cconj (m i)))))) with (rnd53 (Im (p i) + Im (m i)), - rnd53 (Re (p i) - Re (m i))) in A.
    2:{ unfold cadd_r, turn, Cconj, Re, Im. cbn [fst snd]. rewrite <- rnd53_opp. f_equal; f_equal; ring. }
    eapply rel_conv; [exact A| | |lia].
    + unfold turn, Cconj, Cplus, Re, Im. cbn [fst snd]. f_equal; ring.
    + destruct Rm as (H1 & _). unfold Cconj, Cplus. destruct sm as [a b]. cbn [Im fst snd] in *. subst b. cbn [fst snd]. f_equal. ring.
Qed.

(** ** Loops of rounded sums *)
Definition step (N K0 : nat) (p p' t s : vec) : Prop := forall i K y s0, (K0 <= K)%nat -> rel K (p i) y s0 ->
  rel (K + N) (p' i) (Cplus y (t i)) (Cplus s0 (s i)).
Lemma step_skip N K0 p t s : (forall i, t i = RtoC 0) -> (forall i, s i = RtoC 0) -> step N K0 p p t s.
Proof. intros Ht Hs i K y s0 HK H. eapply rel_conv; [exact H|rewrite Ht; ring|rewrite Hs; ring|lia]. Qed.
Lemma step_add K0 p v t s : (forall i, rel K0 (v i) (t i) (s i)) -> step 1 K0 p (vadd_r p v) t s.
Proof.
  intros H i K y s0 HK Hp. unfold vadd_r. eapply rel_conv; [apply rel_add; [exact Hp|]|reflexivity|reflexivity|lia].
  eapply rel_conv; [apply H|reflexivity|reflexivity|assumption].
Qed.
Lemma step_from_zero N K0 p' t s : step N K0 vzero p' t s -> forall i, rel (K0 + N) (p' i) (t i) (s i).
Proof.
  intros H i. eapply rel_conv; [apply (H i K0 (RtoC 0) (RtoC 0)); [lia|apply rel_zero]|ring|ring|lia].
Qed.
Lemma step_ext N K0 p p' t s t' s' : (forall i, t i = t' i) -> (forall i, s i = s' i) -> step N K0 p p' t s -> step N K0 p p' t' s'.
Proof. intros Ht Hs H i K y s0 HK Hp. rewrite <- Ht, <- Hs. now apply H. Qed.
Lemma step_comp N1 N2 K0 p p1 p2 t1 t2 s1 s2 : step N1 K0 p p1 t1 s1 -> step N2 K0 p1 p2 t2 s2 ->
  step (N1 + N2) K0 p p2 (fun i => Cplus (t1 i) (t2 i)) (fun i => Cplus (s1 i) (s2 i)).
Proof.
  intros H1 H2 i K y s0 HK Hp. eapply rel_conv; [apply (H2 i (K + N1)%nat); [lia|apply H1; [assumption|exact Hp]]|ring|ring|lia].
Qed.
Lemma foreach_rsum {A} (l : list A) (body : A -> vec -> res vec) N K0 (t s : A -> vec) :
  (forall x p, In x l -> exists p', body x p = Ok p' /\ step N K0 p p' (t x) (s x)) ->
  forall p, exists p', foreach l body p = Ok p' /\ step (length l * N) K0 p p' (fun i => csum l (fun x => t x i)) (fun i => csum l (fun x => s x i)).
Proof.
  induction l as [|x l IH]; intros H p.
  - exists p. split; [reflexivity|]. apply step_skip; reflexivity.
  - destruct (H x p (or_introl eq_refl)) as [p1 [E1 S1]]. cbn [foreach]. rewrite E1. cbn [bind].
    destruct (IH (fun y q Hy => H y q (or_intror Hy)) p1) as [p2 [E2 S2]]. exists p2. split; [exact E2|].
    cbn [length csum]. apply (step_comp _ _ _ _ _ _ _ _ _ _ S1 S2).
Qed.
Lemma foreach_rsum2 {A} (l : list A) (body : A -> vec * vec -> res (vec * vec)) N K0 (t s u r : A -> vec) :
  (forall x p m, In x l -> exists p' m', body x (p, m) = Ok (p', m') /\ step N K0 p p' (t x) (s x) /\ step N K0 m m' (u x) (r x)) ->
  forall p m, exists p' m', foreach l body (p, m) = Ok (p', m') /\
    step (length l * N) K0 p p' (fun i => csum l (fun x => t x i)) (fun i => csum l (fun x => s x i)) /\
    step (length l * N) K0 m m' (fun i => csum l (fun x => u x i)) (fun i => csum l (fun x => r x i)).
Proof.
  induction l as [|x l IH]; intros H p m.
  - exists p, m. split; [reflexivity|]. split; apply step_skip; reflexivity.
  - destruct (H x p m (or_introl eq_refl)) as (p1 & m1 & E1 & S1 & S1'). cbn [foreach]. rewrite E1. cbn [bind].
    destruct (IH (fun y q q' Hy => H y q q' (or_intror Hy)) p1 m1) as (p2 & m2 & E2 & S2 & S2'). exists p2, m2. split; [exact E2|].
    cbn [length csum]. split; [apply (step_comp _ _ _ _ _ _ _ _ _ _ S1 S2)|apply (step_comp _ _ _ _ _ _ _ _ _ _ S1' S2')].
Qed.
