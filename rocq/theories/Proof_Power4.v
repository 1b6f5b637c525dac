(** The power balance of the simulated currents, for any number of tones and
    harmonics, up to a truncation error that vanishes faster than geometrically. *)
From Coq Require Import List ZArith Bool Reals Lia Lra Psatz.
From Coquelicot Require Import Coquelicot.
From Verif Require Import Base Sums Round Bessel Model_QtCurrent Spec_QtCurrent Spec_QtApi Spec_Power Spec_Phase Proof_QtCurrent Proof_QtCurrent2 Proof_QtWit Proof_QtSym Proof_QtApi Proof_QtApi2 Proof_Power Proof_Power2 Proof_Bessel Proof_Weights Proof_Decay Proof_Converge Proof_JacobiAnger Proof_Phase Proof_Fourier Proof_Ohm.
Import ListNotations.
Open Scope R_scope.
Local Notation length := List.length.
Local Notation Forall := List.Forall.

(** ** The recurrence between the coefficients of one tone *)
Lemma extract b c a N : (Z.of_nat b + Z.abs a < Z.of_nat N)%Z -> avg N (fun x => Cmult (trig b c x) (cis (IZR a * x))) = cut b c (- a).
Proof.
  intros H. rewrite (avg_ext N _ (fun x => csum (sym b) (fun k => Cmult (c k) (cis (IZR (k + a) * x))))).
  2:{ intros x. unfold trig. rewrite <- csum_scal_r. apply csum_ext. intros k _. rewrite plus_IZR, Rmult_plus_distr_r, cis_add. ring. }
  rewrite avg_csum. rewrite (csum_ext _ _ (fun k => if (k =? - a)%Z then c k else RtoC 0)).
  2:{ intros k Hk. apply in_sym in Hk. rewrite avg_scal, avg_cis by lia. destruct (Z.eqb_spec (k + a) 0); destruct (Z.eqb_spec k (- a)); try lia; ring. }
  unfold cut. destruct (Z.leb_spec (Z.abs (- a)) (Z.of_nat b)) as [L|L].
  - rewrite (csum_single _ (- a)%Z); [now rewrite Z.eqb_refl|apply sym_NoDup|apply in_sym; lia|]. intros k _ NE. destruct (Z.eqb_spec k (- a)); [contradiction|reflexivity].
  - apply csum_0. intros k Hk. apply in_sym in Hk. destruct (Z.eqb_spec k (- a)); [lia|reflexivity].
Qed.
(** The neighbours of a coefficient, weighted with the voltages. *)
Definition neighbours (v : nat -> C) (P : nat) (c : Z -> C) (k : Z) : C :=
  csum (seq 1 P) (fun p => Cmult (RtoC (/ 2)) (Cplus (Cmult (v p) (c (k + Z.of_nat p)%Z)) (Cmult (Cconj (v p)) (c (k - Z.of_nat p)%Z)))).
Lemma slopes_voltage v fr P x : fr <> 0 -> RtoC (fr * slopes (fun p => Cmod (v p) / (INR p * fr)) (fun p => angle (v p)) P x) =
  csum (seq 1 P) (fun p => Cmult (RtoC (/ 2)) (Cplus (Cmult (v p) (cis (IZR (- Z.of_nat p) * x))) (Cmult (Cconj (v p)) (cis (IZR (Z.of_nat p) * x))))).
Proof.
  intros F. induction P as [|P IH]. { cbn [slopes seq csum]. now rewrite Rmult_0_r. }
  rewrite seq_S, csum_app, <- IH. cbn [csum Nat.add]. set (m := S P) in *. change (slopes (fun p => Cmod (v p) / (INR p * fr)) (fun p => angle (v p)) m x) with (slopes (fun p => Cmod (v p) / (INR p * fr)) (fun p => angle (v p)) P x + INR m * (Cmod (v m) / (INR m * fr)) * cos (INR m * x - angle (v m))).
  assert (M : INR m <> 0) by (apply not_0_INR; unfold m; lia). rewrite Rmult_plus_distr_l, RtoC_plus. f_equal. rewrite Cplus_0_r.
  replace (fr * (INR m * (Cmod (v m) / (INR m * fr)) * cos (INR m * x - angle (v m)))) with (Cmod (v m) * cos (INR m * x - angle (v m))) by (field; auto).
  rewrite opp_IZR, <- INR_IZR_INZ. assert (E := angle_polar (v m)). rewrite E at 3 4. rewrite Cconj_mult, Cconj_R, Cconj_cis. set (r := Cmod (v m)). set (t := angle (v m)).
  replace (Cplus (Cmult (Cmult (RtoC r) (cis t)) (cis (- INR m * x))) (Cmult (Cmult (RtoC r) (cis (- t))) (cis (INR m * x)))) with (Cmult (RtoC r) (Cplus (Cmult (cis t) (cis (- INR m * x))) (Cmult (cis (- t)) (cis (INR m * x))))) by ring.
  rewrite <- !cis_add. replace (t + - INR m * x) with (- (INR m * x - t)) by ring. replace (- t + INR m * x) with (INR m * x - t) by ring. unfold cis, Cplus, Cmult, RtoC. cbn [fst snd]. rewrite cos_neg, sin_neg. f_equal; field.
Qed.
Lemma recurrence_near v fr P q : fr <> 0 -> (1 <= P)%nat -> 0 < q <= 1 -> exists K, 0 <= K /\ forall B b n k, (n <= b)%nat -> (b <= B)%nat -> (Z.abs k <= Z.of_nat b)%Z ->
  let c := phase_factor B b (fun p => jacobi_anger besselJ (Cmod (v p) / (INR p * fr)) (angle (v p))) P in
  Cmod (Cminus (Cmult (RtoC (IZR k * fr)) (c k)) (neighbours v P (cut b c) k)) <= K * q ^ n.
Proof.
  intros F HP Q. set (alpha := fun p => Cmod (v p) / (INR p * fr)). set (phi := fun p => angle (v p)).
  destruct (phase_factor_series alpha phi P q HP Q) as [K [K0 H]]. destruct (moment_series alpha phi P q HP Q) as [K1 [K10 H1]]. set (SB := rsum (seq 1 P) (fun m => INR m * Rabs (alpha m))). assert (SB0 : 0 <= SB). { apply rsum_nonneg. intros m _. apply Rmult_le_pos; [apply pos_INR|apply Rabs_pos]. }
  exists (Rabs fr * (K1 + SB * K)). split; [apply Rmult_le_pos; [apply Rabs_pos|nra]|]. intros B b n k L1 L2 Lk c.
  set (N := (2 * b + P + 1)%nat).
  assert (E1 : Cmult (RtoC (IZR k * fr)) (c k) = avg N (fun x => Cmult (RtoC fr) (Cmult (trig b (tilt c) x) (cis (IZR (- k) * x))))).
  { rewrite avg_scal, extract by lia. rewrite Z.opp_involutive, cut_in by lia. unfold tilt. rewrite RtoC_mult. ring. }
  assert (E2 : neighbours v P (cut b c) k = avg N (fun x => Cmult (RtoC (fr * slopes alpha phi P x)) (Cmult (trig b c x) (cis (IZR (- k) * x))))).
  { rewrite (avg_ext N _ (fun x => csum (seq 1 P) (fun p => Cmult (RtoC (/ 2)) (Cplus (Cmult (v p) (Cmult (trig b c x) (cis (IZR (- (k + Z.of_nat p)) * x)))) (Cmult (Cconj (v p)) (Cmult (trig b c x) (cis (IZR (- (k - Z.of_nat p)) * x)))))))).
    2:{ intros x. unfold alpha, phi. rewrite slopes_voltage by assumption. rewrite <- csum_scal_r. apply csum_ext. intros p _. replace (IZR (- (k + Z.of_nat p)) * x) with (IZR (- Z.of_nat p) * x + IZR (- k) * x) by (rewrite !opp_IZR, plus_IZR; ring). replace (IZR (- (k - Z.of_nat p)) * x) with (IZR (Z.of_nat p) * x + IZR (- k) * x) by (rewrite !opp_IZR, minus_IZR; ring). rewrite !cis_add. ring. }
    rewrite avg_csum. unfold neighbours. apply csum_ext. intros p Hp. apply in_seq in Hp. rewrite avg_scal, avg_plus, !avg_scal. rewrite !extract by lia. rewrite !Z.opp_involutive. reflexivity. }
  rewrite E1, E2. apply avg_close; [lia|]. intros x. set (X := trig b c x). set (G := trig b (tilt c) x). set (s := slopes alpha phi P x). set (E := cis (phases alpha phi P x)).
  assert (D : Cmod (Cminus X E) <= K * q ^ n) by (apply H; lia). assert (D1 : Cmod (Cminus G (Cmult (RtoC s) E)) <= K1 * q ^ n) by (apply H1; lia). assert (S1 : Rabs s <= SB) by apply slopes_bound.
  rewrite RtoC_mult. replace (Cminus (Cmult (RtoC fr) (Cmult G (cis (IZR (- k) * x)))) (Cmult (Cmult (RtoC fr) (RtoC s)) (Cmult X (cis (IZR (- k) * x))))) with (Cmult (Cmult (RtoC fr) (cis (IZR (- k) * x))) (Cplus (Cminus G (Cmult (RtoC s) E)) (Cmult (RtoC s) (Copp (Cminus X E))))) by ring.
  rewrite !Cmod_mult, Cmod_cis, Cmod_R, Rmult_1_r, Rmult_assoc. apply Rmult_le_compat_l; [apply Rabs_pos|]. eapply Rle_trans; [apply Cmod_triangle|]. rewrite Cmod_mult, Cmod_opp, Cmod_R.
  assert (Rabs s * Cmod (Cminus X E) <= SB * (K * q ^ n)) by (apply Rmult_le_compat; try assumption; [apply Rabs_pos|apply Cmod_ge_0]). lra.
Qed.

(** ** Sums with one factor per tone *)
Section sums.
Variables (b : nat -> nat) (c : nat -> Z -> C).
Fixpoint ps (l : list nat) (u : nat -> Z -> C) (rk : list Z -> C) : C :=
  match l with [] => rk [] | f :: l => csum (sym (b f)) (fun k => Cmult (Cmult (c f k) (Cconj (u f k))) (ps l u (fun ks => rk (k :: ks)))) end.
Lemma ps_ext l : forall u u' rk rk', (forall f k, In f l -> (Z.abs k <= Z.of_nat (b f))%Z -> u f k = u' f k) -> (forall ks, rk ks = rk' ks) -> ps l u rk = ps l u' rk'.
Proof. induction l as [|f l IH]; intros u u' rk rk' H H'; cbn [ps]; [apply H'|]. apply csum_ext. intros k Hk. apply in_sym in Hk. rewrite (H f k) by (try (now left); lia). f_equal. apply IH; [intros; apply H; [now right|assumption]|intros; apply H']. Qed.
Lemma ps_scal l : forall u rk z, ps l u (fun ks => Cmult z (rk ks)) = Cmult z (ps l u rk).
Proof. induction l as [|f l IH]; intros u rk z; cbn [ps]; [reflexivity|]. rewrite <- csum_scal_l. apply csum_ext. intros k _. rewrite IH. ring. Qed.
Lemma ps_plus l : forall u rk rk', ps l u (fun ks => Cplus (rk ks) (rk' ks)) = Cplus (ps l u rk) (ps l u rk').
Proof. induction l as [|f l IH]; intros u rk rk'; cbn [ps]; [reflexivity|]. rewrite <- csum_plus. apply csum_ext. intros k _. rewrite IH. ring. Qed.
(** Linear in the factor of one tone. *)
Lemma ps_lin l f0 z1 z2 : forall u u1 u2 rk, NoDup l -> In f0 l -> (forall f k, f <> f0 -> u f k = u1 f k /\ u f k = u2 f k) -> (forall k, u f0 k = Cplus (Cmult z1 (u1 f0 k)) (Cmult z2 (u2 f0 k))) ->
  ps l u rk = Cplus (Cmult (Cconj z1) (ps l u1 rk)) (Cmult (Cconj z2) (ps l u2 rk)).
Proof.
  induction l as [|f l IH]; intros u u1 u2 rk ND HI H H0; [destruct HI|]. inversion ND as [|? ? NI ND']; subst. cbn [ps]. rewrite <- !csum_scal_l, <- csum_plus. apply csum_ext. intros k _. destruct HI as [-> |HI].
  - rewrite H0. rewrite Cconj_plus, !Cconj_mult. rewrite (ps_ext l u u1 (fun ks => rk (k :: ks)) (fun ks => rk (k :: ks))), (ps_ext l u2 u1 (fun ks => rk (k :: ks)) (fun ks => rk (k :: ks))); try reflexivity; [ring| |]; intros f k' Hf _; assert (NE : f <> f0) by (intros ->; contradiction); destruct (H f k' NE) as [E1 E2]; congruence.
  - assert (NE : f <> f0) by (intros ->; contradiction). destruct (H f k NE) as [E1 E2]. rewrite <- E1, <- E2. rewrite (IH u u1 u2) by assumption. ring.
Qed.
Lemma ps_csum {A} (I : list A) l f0 : forall (u : nat -> Z -> C) (W : A -> Z -> C) rk, NoDup l -> In f0 l ->
  ps l (fun f k => if Nat.eqb f f0 then csum I (fun p => W p k) else u f k) rk = csum I (fun p => ps l (fun f k => if Nat.eqb f f0 then W p k else u f k) rk).
Proof.
  intros u W rk ND HI. induction I as [|p I IH]; cbn [csum].
  - rewrite (ps_lin l f0 (RtoC 0) (RtoC 0) _ (fun f k => if Nat.eqb f f0 then RtoC 0 else u f k) (fun f k => if Nat.eqb f f0 then RtoC 0 else u f k)) by (try assumption; intros; rewrite ?Nat.eqb_refl; try (split; reflexivity); ring). rewrite Cconj_R. ring.
  - rewrite <- IH. rewrite (ps_lin l f0 (RtoC 1) (RtoC 1) _ (fun f k => if Nat.eqb f f0 then W p k else u f k) (fun f k => if Nat.eqb f f0 then csum I (fun p => W p k) else u f k)); try assumption.
    + rewrite Cconj_R. ring.
    + intros f k NE. destruct (Nat.eqb_spec f f0); [contradiction|]. now split.
    + intros k. rewrite Nat.eqb_refl. ring.
Qed.
(** Bounded. *)
Variables (K q G : R).
Hypothesis K0 : 0 <= K.
Hypothesis Q : 0 < q <= 1.
Hypothesis G1 : 1 <= G.
Hypothesis QG : q * G <= / 2.
Fixpoint prods (U : nat -> R) (l : list nat) : R := match l with [] => 1 | f :: l => 3 * K * U f * prods U l end.
Lemma ps_bounded l : forall u U rk M, (forall f, In f l -> 0 <= U f) -> (forall f k, In f l -> Cmod (c f k) <= K * pw q k) -> (forall f k, In f l -> (Z.abs k <= Z.of_nat (b f))%Z -> Cmod (u f k) <= U f) -> 0 <= M -> grows M G rk ->
  Cmod (ps l u rk) <= prods U l * M.
Proof.
  induction l as [|f l IH]; intros u U rk M U0 HC HU M0 H; cbn [ps prods].
  - rewrite Rmult_1_l. assert (X := H []). cbn in X. lra.
  - assert (PM : 0 <= prods U l). { clear -U0 K0. induction l as [|h l IH]; cbn [prods]; [lra|]. assert (X : 0 <= U h) by (apply U0; right; now left). assert (Y : 0 <= prods U l). { apply IH. intros g [<- |Hg]; apply U0; [now left|right; now right]. } apply Rmult_le_pos; [|assumption]. apply Rmult_le_pos; [lra|assumption]. }
    assert (UF := U0 f (or_introl eq_refl)). eapply Rle_trans; [apply Cmod_csum|]. apply Rle_trans with (rsum (sym (b f)) (fun k => K * U f * (prods U l * M) * pw (/ 2) k)).
    + apply rsum_le. intros k Hk. apply in_sym in Hk. rewrite !Cmod_mult, Cmod_Cconj. assert (PG : 0 < pw G k) by (apply pw_pos; lra). assert (PQ : 0 < pw q k) by (apply pw_pos; lra).
      assert (R := IH u U (fun ks => rk (k :: ks)) (M * pw G k) (fun f' Hf => U0 f' (or_intror Hf)) (fun f' k' Hf => HC f' k' (or_intror Hf)) (fun f' k' Hf => HU f' k' (or_intror Hf)) ltac:(nra) (grows_cons _ _ _ k H)).
      assert (X1 := HC f k (or_introl eq_refl)). assert (X2 : Cmod (u f k) <= U f) by (apply HU; [now left|lia]). assert (X4 : pw q k * pw G k <= pw (/ 2) k). { rewrite <- pw_mult. apply pow_incr. split; [nra|assumption]. }
      apply Rle_trans with (K * pw q k * U f * (prods U l * (M * pw G k))).
      { apply Rmult_le_compat; try apply Cmod_ge_0; [apply Rmult_le_pos; apply Cmod_ge_0| |assumption]. apply Rmult_le_compat; try apply Cmod_ge_0; assumption. }
      replace (K * pw q k * U f * (prods U l * (M * pw G k))) with (K * U f * (prods U l * M) * (pw q k * pw G k)) by ring. apply Rmult_le_compat_l; [|assumption]. apply Rmult_le_pos; now apply Rmult_le_pos.
    + rewrite rsum_scal. assert (S3 := half_sum_le (b f)). assert (0 <= K * U f * (prods U l * M)) by (apply Rmult_le_pos; now apply Rmult_le_pos). nra.
Qed.
End sums.
(** The sums of eqn 5.25 in this form. *)
Lemma rs_ps b c a l : forall rk, rs_sum (map (fun f => Tone (b f) (c f)) l) (map a l) rk = ps b c l (fun f k => cut (b f) (c f) (k + a f)) rk.
Proof. induction l as [|f l IH]; intros rk; cbn [map rs_sum ps t_b t_C]; [reflexivity|]. apply csum_ext. intros k _. now rewrite IH. Qed.
Lemma fold_rsum {A} (l : list A) f : fold_right Rplus 0 (map f l) = rsum l f.
Proof. induction l as [|x l IH]; cbn [map fold_right rsum]; [reflexivity|now rewrite IH]. Qed.
(** ** Power at one bias point *)
Section point.
Variables (b : nat -> nat) (c : nat -> Z -> C) (v : nat -> nat -> C) (fr : nat -> R) (P : nat) (rk : list Z -> C).
Let cc (f : nat) (k : Z) : C := cut (b f) (c f) k.
Let ts (l : list nat) : list tone := map (fun f => Tone (b f) (c f)) l.
Definition one (f p f' : nat) : Z := if Nat.eqb f' f then Z.of_nat p else 0%Z.
Lemma power_term l f0 p : NoDup l -> In f0 l -> (1 <= p)%nat ->
  / 2 * Re (Cmult (Cconj (v f0 p)) (coeff (ts l) (map (one f0 p) l) rk)) =
  Im (ps b c l (fun f k => if Nat.eqb f f0 then Cmult (RtoC (/ 2)) (Cplus (Cmult (v f0 p) (cc f0 (k + Z.of_nat p))) (Cmult (Cconj (v f0 p)) (cc f0 (k - Z.of_nat p)))) else cc f k) rk).
Proof.
  intros ND HI Hp. rewrite (ps_lin b c l f0 (Cmult (RtoC (/ 2)) (v f0 p)) (Cmult (RtoC (/ 2)) (Cconj (v f0 p))) _ (fun f k => cut (b f) (c f) (k + one f0 p f)) (fun f k => cut (b f) (c f) (k + - one f0 p f))); try assumption.
  - rewrite <- (rs_ps b c (one f0 p) l rk), <- (rs_ps b c (fun f => - one f0 p f)%Z l rk). fold (ts l). unfold coeff. rewrite map_map. rewrite (forallb_nz l (one f0 p) f0); [|assumption|unfold one; rewrite Nat.eqb_refl; lia].
    generalize (rs_sum (ts l) (map (one f0 p) l) rk) (rs_sum (ts l) (map (fun f => (- one f0 p f)%Z) l) rk) (v f0 p). intros [xr xi] [yr yi] [vr vi]. unfold Cmult, Cplus, Cconj, RtoC, Re, Im. cbn [fst snd]. field.
  - intros f k NE. unfold one, cc. destruct (Nat.eqb_spec f f0); [contradiction|]. cbn [Z.opp]. rewrite Z.add_0_r. now split.
  - intros k. unfold one, cc. rewrite Nat.eqb_refl. rewrite Z.add_opp_r. ring.
Qed.
Lemma power_tone l f0 : NoDup l -> In f0 l ->
  rsum (seq 1 P) (fun p => / 2 * Re (Cmult (Cconj (v f0 p)) (coeff (ts l) (map (one f0 p) l) rk))) = Im (ps b c l (fun f k => if Nat.eqb f f0 then neighbours (v f0) P (cc f0) k else cc f k) rk).
Proof.
  intros ND HI. unfold neighbours. rewrite (ps_csum b c (seq 1 P) l f0 cc (fun p k => Cmult (RtoC (/ 2)) (Cplus (Cmult (v f0 p) (cc f0 (k + Z.of_nat p))) (Cmult (Cconj (v f0 p)) (cc f0 (k - Z.of_nat p))))) rk ND HI).
  rewrite Im_rsum. apply rsum_ext. intros p Hp. apply in_seq in Hp. apply power_term; [assumption|assumption|lia].
Qed.
Definition tilted (f0 f : nat) (k : Z) : C := if Nat.eqb f f0 then Cmult (RtoC (IZR k * fr f0)) (cc f0 k) else cc f k.
Lemma tilted_sum l : NoDup l -> forall rk, csum l (fun f0 => ps b c l (tilted f0) rk) = ps b c l cc (fun ks => Cmult (RtoC (dot ks (map fr l))) (rk ks)).
Proof.
  induction l as [|f l IH]; intros ND rk'. { cbn [csum ps map dot]. ring. } inversion ND as [|? ? NI ND']; subst. cbn [csum ps map].
  rewrite (csum_ext l _ (fun f0 => csum (sym (b f)) (fun k => Cmult (Cmult (c f k) (Cconj (cc f k))) (ps b c l (tilted f0) (fun ks => rk' (k :: ks)))))).
  2:{ intros f0 Hf. apply csum_ext. intros k _. unfold tilted at 1. destruct (Nat.eqb_spec f f0) as [<- |]; [contradiction|reflexivity]. }
  rewrite csum_swap, <- csum_plus. apply csum_ext. intros k _. rewrite csum_scal_l. rewrite IH by assumption. unfold tilted at 1. rewrite Nat.eqb_refl.
  rewrite (ps_ext b c l (tilted f) cc (fun ks => rk' (k :: ks)) (fun ks => rk' (k :: ks))); [|intros f' k' Hf _; unfold tilted; destruct (Nat.eqb_spec f' f) as [-> |]; [contradiction|reflexivity]|reflexivity].
  rewrite (ps_ext b c l cc cc (fun ks => Cmult (RtoC (dot (k :: ks) (fr f :: map fr l))) (rk' (k :: ks))) (fun ks => Cplus (Cmult (RtoC (IZR k * fr f)) (rk' (k :: ks))) (Cmult (RtoC (dot ks (map fr l))) (rk' (k :: ks))))); [|reflexivity|intros ks; cbn [dot]; rewrite RtoC_plus; ring].
  rewrite ps_plus, ps_scal. rewrite Cconj_mult, Cconj_R. ring.
Qed.
Lemma mean_ps l : forall h, Im (ps b c l cc h) = mean (map (fun f => (b f, fun k => Cmod (c f k) ^ 2)) l) (fun ks => Im (h ks)).
Proof.
  induction l as [|f l IH]; intros h; cbn [ps map mean]; [reflexivity|]. rewrite Im_rsum, fold_rsum. apply rsum_ext. intros k Hk. apply in_sym in Hk. rewrite <- IH. unfold cc at 1. rewrite cut_in by lia.
  replace (Cmult (c f k) (Cconj (c f k))) with (RtoC (Cmod (c f k) ^ 2)). { unfold Cmult, RtoC, Im. cbn [fst snd]. ring. }
  destruct (c f k) as [x y]. unfold Cmod, Cmult, Cconj, RtoC. cbn [fst snd]. f_equal; [|ring]. rewrite pow2_sqrt by nra. ring.
Qed.
End point.
Lemma prods_scale K U l f0 X : NoDup l -> In f0 l -> prods K (fun f => if Nat.eqb f f0 then X else U f) l = prods K (fun f => if Nat.eqb f f0 then 1 else U f) l * X.
Proof.
  assert (N : forall l Y Y', ~ In f0 l -> prods K (fun f => if Nat.eqb f f0 then Y else U f) l = prods K (fun f => if Nat.eqb f f0 then Y' else U f) l).
  { clear. intros l Y Y'. induction l as [|f l IH]; intros N; cbn [prods]; [reflexivity|]. rewrite IH by (intros I; apply N; now right). destruct (Nat.eqb_spec f f0) as [-> |]; [exfalso; apply N; now left|reflexivity]. }
  induction l as [|f l IH]; intros ND HI; [destruct HI|]. inversion ND as [|? ? NI ND']; subst. cbn [prods]. destruct HI as [-> |HI].
  - rewrite Nat.eqb_refl. rewrite (N l X 1) by assumption. ring.
  - rewrite IH by assumption. destruct (Nat.eqb_spec f f0) as [-> |]; [contradiction|ring].
Qed.
Lemma rsum_near {A} (l : list A) f g X : (forall x, In x l -> Rabs (f x - g x) <= X) -> Rabs (rsum l f - rsum l g) <= INR (length l) * X.
Proof.
  induction l as [|x l IH]; intros H. { cbn [rsum length INR]. rewrite Rminus_0_r, Rabs_R0. lra. }
  cbn [rsum length]. rewrite S_INR. replace (f x + rsum l f - (g x + rsum l g)) with ((f x - g x) + (rsum l f - rsum l g)) by ring. eapply Rle_trans; [apply Rabs_triang|]. assert (H1 := H x (or_introl eq_refl)). assert (H2 := IH (fun y Hy => H y (or_intror Hy))). lra.
Qed.
Lemma Im_plus z z' : Im (Cplus z z') = Im z + Im z'. Proof. reflexivity. Qed.
Section circuit.
Variables (vj : nat -> nat -> vec) (cct : qcct) (resp : R -> C) (A B : R) (i : nat) (q : R).
Hypothesis B0 : 0 <= B.
Hypothesis Q0 : 0 < q.
Hypothesis HR : forall v, Cmod (resp v) <= A * exp (B * Rabs v).
Hypothesis P : (1 <= q_num_p cct)%nat.
Hypothesis FR : forall f, (1 <= f <= q_num_f cct)%nat -> 0 < q_freq cct f.
Let l := seq 1 (q_num_f cct).
Let V := q_vb cct i.
Let rk (ks : list Z) : C := resp (V + dot ks (freqs cct)).
Let bb (num_b : numb) (f : nat) : nat := nth (f - 1) (nbtuple num_b (q_num_f cct)) O.
Let cf (num_b : numb) (f : nat) : Z -> C :=
  phase_factor (list_max (nbtuple num_b (q_num_f cct))) (bb num_b f) (fun p => jacobi_anger besselJ (Cmod (vj f p i) / (INR p * q_freq cct f)) (angle (vj f p i))) (q_num_p cct).
Lemma tones_Tone num_b : tones besselJ vj cct num_b i = map (fun f => Tone (bb num_b f) (cf num_b f)) l.
Proof. reflexivity. Qed.
Definition absorbed (num_b : numb) : R :=
  V * Im (rs_sum (tones besselJ vj cct num_b i) (repeat 0%Z (q_num_f cct)) rk) +
  rsum l (fun f => rsum (seq 1 (q_num_p cct)) (fun p => / 2 * Re (Cmult (Cconj (vj f p i)) (coeff (tones besselJ vj cct num_b i) (single (q_num_f cct) f p) rk)))).
Definition photon_power (num_b : numb) : R := mean (map (fun f => (bb num_b f, fun k => Cmod (cf num_b f k) ^ 2)) l) (fun ks => (V + dot ks (freqs cct)) * Im (rk ks)).
Lemma mean_ext d : forall h h', (forall ks, h ks = h' ks) -> mean d h = mean d h'.
Proof. induction d as [|[b0 p] d IH]; intros h h' H; cbn [mean]; [apply H|]. rewrite !fold_rsum. apply rsum_ext. intros k _. f_equal. apply IH. intros; apply H. Qed.
Lemma photon_ps num_b : photon_power num_b = V * Im (ps (bb num_b) (cf num_b) l (fun f k => cut (bb num_b f) (cf num_b f) k) rk) + Im (ps (bb num_b) (cf num_b) l (fun f k => cut (bb num_b f) (cf num_b f) k) (fun ks => Cmult (RtoC (dot ks (freqs cct))) (rk ks))).
Proof.
  transitivity (Im (ps (bb num_b) (cf num_b) l (fun f k => cut (bb num_b f) (cf num_b f) k) (fun ks => Cplus (Cmult (RtoC V) (rk ks)) (Cmult (RtoC (dot ks (freqs cct))) (rk ks))))).
  - rewrite mean_ps. unfold photon_power. apply mean_ext. intros ks. unfold Im, Cplus, Cmult, RtoC. cbn [fst snd]. ring.
  - rewrite ps_plus, ps_scal. unfold Im, Cplus, Cmult, RtoC. cbn [fst snd]. ring.
Qed.
Theorem power_near : exists K, 0 <= K /\ forall num_b n, args_ok cct num_b -> Forall (le n) (truncations num_b (q_num_f cct)) -> Rabs (absorbed num_b - photon_power num_b) <= K * q ^ n.
Proof.
  assert (A0 : 0 <= A). { assert (X := HR 0). assert (Y := Cmod_ge_0 (resp 0)). assert (Z := exp_pos (B * Rabs 0)). nra. }
  destruct (finite_bound (freqs cct) (fun f K => Rabs f <= K)) as [fm [FM0 FM]]. { intros; lra. } { intros f _. exists (Rabs f). split; [apply Rabs_pos|lra]. }
  set (G := exp (B * fm)). assert (G1 : 1 <= G). { unfold G. rewrite <- exp_0. apply exp_le. nra. }
  set (q1 := Rmin q (/ (2 * G))). assert (IG : 0 < / (2 * G) <= 1). { split; [apply Rinv_0_lt_compat; lra|]. rewrite <- Rinv_1. apply Rinv_le_contravar; lra. }
  assert (Q1 : 0 < q1 <= 1). { unfold q1. split; [now apply Rmin_pos|]. eapply Rle_trans; [apply Rmin_r|lra]. }
  assert (QG : q1 * G <= / 2). { apply Rle_trans with (/ (2 * G) * G); [|right; field; lra]. apply Rmult_le_compat_r; [lra|apply Rmin_r]. }
  set (M := A * exp (B * Rabs V)). assert (M0 : 0 <= M) by (apply Rmult_le_pos; [assumption|left; apply exp_pos]).
  assert (GR : grows M G rk). { intros ks. unfold rk. eapply Rle_trans; [apply HR|]. unfold M. rewrite Rmult_assoc. apply Rmult_le_compat_l; [assumption|]. eapply Rle_trans; [|apply Rmult_le_compat_l; [left; apply exp_pos|apply (dot_exp B fm (freqs cct) ks B0 FM0 FM)]].
    rewrite <- exp_plus. apply exp_le. assert (TR := Rabs_triang V (dot ks (freqs cct))). nra. }
  set (cB := fun (f : nat) (Bm b : nat) => phase_factor Bm b (fun p => jacobi_anger besselJ (Cmod (vj f p i) / (INR p * q_freq cct f)) (angle (vj f p i))) (q_num_p cct)).
  destruct (finite_bound l (fun f K => forall Bm b k, Cmod (cB f Bm b k) <= K * pw q1 k)) as [K [K0 HK]].
  { intros f K K' _ L H Bm b k. eapply Rle_trans; [apply H|]. apply Rmult_le_compat_r; [left; apply pw_pos; lra|assumption]. }
  { intros f _. apply (dominated (fun p => jacobi_anger besselJ (Cmod (vj f p i) / (INR p * q_freq cct f)) (angle (vj f p i)))); [intros p _; apply rapid_bessel|assumption|assumption]. }
  destruct (finite_bound l (fun f D => forall Bm b n k, (n <= b)%nat -> (b <= Bm)%nat -> (Z.abs k <= Z.of_nat b)%Z -> Cmod (Cminus (Cmult (RtoC (IZR k * q_freq cct f)) (cB f Bm b k)) (neighbours (fun p => vj f p i) (q_num_p cct) (cut b (cB f Bm b)) k)) <= D * q1 ^ n)) as [D [D0 HD]].
  { intros f K' K'' _ L H Bm b n k L1 L2 L3. eapply Rle_trans; [exact (H Bm b n k L1 L2 L3)|]. apply Rmult_le_compat_r; [left; apply pow_lt; lra|assumption]. }
  { intros f Hf. apply in_seq in Hf. refine (recurrence_near (fun p => vj f p i) (q_freq cct f) (q_num_p cct) q1 _ P Q1). apply Rgt_not_eq, FR. lia. }
  destruct (finite_bound l (fun f X => prods K (fun f' => if Nat.eqb f' f then 1 else K) l <= X)) as [X [X0 HX]].
  { intros; lra. } { intros f _. exists (Rabs (prods K (fun f' => if Nat.eqb f' f then 1 else K) l)). split; [apply Rabs_pos|apply Rle_abs]. }
  exists (INR (length l) * (X * D * M)). split. { apply Rmult_le_pos; [apply pos_INR|]. apply Rmult_le_pos; [now apply Rmult_le_pos|assumption]. }
  intros num_b n HA T. assert (ND : NoDup l) by apply seq_NoDup.
  set (b := bb num_b). set (c := cf num_b). set (cc := fun f k => cut (b f) (c f) k).
  assert (E1 : absorbed num_b = V * Im (ps b c l cc rk) + rsum l (fun f0 => Im (ps b c l (fun f k => if Nat.eqb f f0 then neighbours (fun p => vj f0 p i) (q_num_p cct) (cc f0) k else cc f k) rk))).
  { unfold absorbed. rewrite tones_Tone. fold b c. f_equal.
    - rewrite <- (map_zero (q_num_f cct) 1). fold l. rewrite (rs_ps b c (fun _ => 0%Z) l rk). f_equal. f_equal. apply ps_ext; [|reflexivity]. intros f k _ _. unfold cc. now rewrite Z.add_0_r.
    - apply rsum_ext. intros f0 Hf. exact (power_tone b c (fun f p => vj f p i) (q_num_p cct) rk l f0 ND Hf). }
  assert (E2 : photon_power num_b = V * Im (ps b c l cc rk) + rsum l (fun f0 => Im (ps b c l (tilted b c (q_freq cct) f0) rk))).
  { rewrite photon_ps. f_equal. rewrite <- Im_rsum. unfold freqs. fold l. rewrite (tilted_sum b c (q_freq cct) l ND rk). reflexivity. }
  rewrite E1, E2.
  match goal with |- Rabs (?a + ?x - (?a + ?y)) <= _ => replace (a + x - (a + y)) with (x - y) by ring end.
  assert (QN : q1 ^ n <= q ^ n) by (apply pow_incr; split; [lra|apply Rmin_l]). assert (QP : 0 < q1 ^ n) by (apply pow_lt; lra).
  apply Rle_trans with (INR (length l) * (X * (D * q1 ^ n) * M)).
  2:{ rewrite (Rmult_assoc (INR (length l))). apply Rmult_le_compat_l; [apply pos_INR|]. replace (X * (D * q1 ^ n) * M) with (X * D * M * q1 ^ n) by ring. apply Rmult_le_compat_l; [apply Rmult_le_pos; [now apply Rmult_le_pos|assumption]|assumption]. }
  apply rsum_near. intros f0 Hf.
  replace (Im (ps b c l (fun f k => if Nat.eqb f f0 then neighbours (fun p => vj f0 p i) (q_num_p cct) (cc f0) k else cc f k) rk) - Im (ps b c l (tilted b c (q_freq cct) f0) rk)) with
    (Im (ps b c l (fun f k => if Nat.eqb f f0 then Cminus (neighbours (fun p => vj f0 p i) (q_num_p cct) (cc f0) k) (Cmult (RtoC (IZR k * q_freq cct f0)) (cc f0 k)) else cc f k) rk)).
  2:{ rewrite (ps_lin b c l f0 (RtoC 1) (Copp (RtoC 1)) _ (fun f k => if Nat.eqb f f0 then neighbours (fun p => vj f0 p i) (q_num_p cct) (cc f0) k else cc f k) (tilted b c (q_freq cct) f0)); try assumption.
      - unfold Cplus, Cmult, Cconj, Copp, RtoC, Im. cbn [fst snd]. ring.
      - intros f k NE. unfold tilted. destruct (Nat.eqb_spec f f0); [contradiction|]. now split.
      - intros k. unfold tilted. rewrite Nat.eqb_refl. fold (cc f0 k). ring. }
  eapply Rle_trans; [apply Im_Cmod|].
  eapply Rle_trans; [apply (ps_bounded b c K q1 G K0 Q1 G1 QG l _ (fun f => if Nat.eqb f f0 then D * q1 ^ n else K) rk M)|].
  - intros f _. destruct (Nat.eqb _ _); [apply Rmult_le_pos; lra|assumption].
  - intros f k Hf'. now apply HK.
  - intros f k Hf' Lk. destruct (Nat.eqb_spec f f0) as [-> |].
    + unfold cc at 2. rewrite cut_in by lia. match goal with |- Cmod (Cminus ?x ?y) <= _ => replace (Cminus x y) with (Copp (Cminus y x)) by ring end. rewrite Cmod_opp. apply HD; [assumption| |apply nb_le|exact Lk]. apply in_seq in Hf. apply at_least_nth; [assumption|now apply args_enough|lia].
    + unfold cc. eapply Rle_trans; [apply Cmod_cut|]. eapply Rle_trans; [now apply HK|]. assert (Y := pw_le_1 q1 k Q1). nra.
  - assumption.
  - assumption.
  - rewrite (prods_scale K (fun _ => K) l f0 (D * q1 ^ n) ND Hf). apply Rmult_le_compat_r; [assumption|]. apply Rmult_le_compat_r; [apply Rmult_le_pos; lra|]. now apply HX.
Qed.
End circuit.
(** ** The API *)
Lemma mean_nonneg d : forall h, (forall x, In x d -> forall k, 0 <= snd x k) -> (forall ks, 0 <= h ks) -> 0 <= mean d h.
Proof.
  induction d as [|[b p] d IH]; intros h H H'; cbn [mean]; [apply H'|]. rewrite fold_rsum. apply rsum_nonneg. intros k _. apply Rmult_le_pos; [apply (H (b, p) (or_introl eq_refl))|]. apply IH; [intros; apply H; now right|intros; apply H'].
Qed.
Lemma mean_weights (l : list nat) (b : nat -> nat) (p p' : nat -> Z -> R) : (forall f k, In f l -> (Z.abs k <= Z.of_nat (b f))%Z -> p f k = p' f k) -> forall h, mean (map (fun f => (b f, p f)) l) h = mean (map (fun f => (b f, p' f)) l) h.
Proof.
  induction l as [|f l IH]; intros H h; cbn [map mean]; [reflexivity|]. rewrite !fold_rsum. apply rsum_ext. intros k Hk. apply in_sym in Hk. rewrite (H f k) by (try (now left); lia). f_equal. apply IH. intros; apply H; [now right|assumption].
Qed.
Theorem balance vj cct resp A B q : 0 <= B -> 0 < q -> (forall v, Cmod (resp v) <= A * exp (B * Rabs v)) -> alone cct 0 (repeat 0%Z (q_num_f cct)) ->
  (forall f p, (1 <= f <= q_num_f cct)%nat -> (1 <= p <= q_num_p cct)%nat -> alone cct (INR p * q_freq cct f) (single (q_num_f cct) f p)) ->
  exists K, 0 <= K /\ forall num_b n ccc dc ac i, args_ok cct num_b -> Forall (le n) (truncations num_b (q_num_f cct)) ->
  calculate_phase_factor_coeff besselJ vj (q_freq cct) (q_num_f cct) (q_num_p cct) num_b = Ok ccc ->
  qtcurrent besselJ vj cct resp (FScalar 0) num_b None = Ok (QReal dc) ->
  (forall f p, (1 <= f <= q_num_f cct)%nat -> (1 <= p <= q_num_p cct)%nat -> qtcurrent besselJ vj cct resp (FList [INR p * q_freq cct f]) num_b None = Ok (QRows [ac f p])) -> (i < q_npts cct)%nat ->
  Rabs (delivered vj cct dc ac i - mean (photons ccc num_b (q_num_f cct) i) (fun ks => let v := q_vb cct i + dot ks (freqs cct) in v * Im (resp v))) <= K * q ^ n.
Proof.
  intros B0 Q H AD AA. destruct (le_lt_dec 1 (q_num_p cct)) as [P|P].
  2:{ exists 0. split; [lra|]. intros num_b n ccc dc ac i (_ & X & _). lia. }
  destruct (finite_bound (seq 0 (q_npts cct)) (fun i K => (forall f, (1 <= f <= q_num_f cct)%nat -> 0 < q_freq cct f) -> forall num_b n, args_ok cct num_b -> Forall (le n) (truncations num_b (q_num_f cct)) ->
    Rabs (absorbed vj cct resp i num_b - photon_power vj cct resp i num_b) <= K * q ^ n)) as [K [K0 HK]].
  { intros i K K' _ L G FR num_b n A1 T. eapply Rle_trans; [exact (G FR num_b n A1 T)|]. apply Rmult_le_compat_r; [left; now apply pow_lt|assumption]. }
  { intros i _. destruct (Forall_dec (fun f => 0 < q_freq cct f) (fun f => Rlt_dec 0 (q_freq cct f)) (seq 1 (q_num_f cct))) as [FR|NF].
    - assert (FR' : forall f, (1 <= f <= q_num_f cct)%nat -> 0 < q_freq cct f). { intros f Hf. rewrite Forall_forall in FR. apply FR. apply in_seq. lia. }
      destruct (power_near vj cct resp A B i q B0 Q H P FR') as [K [K0 HK]]. exists K. split; [assumption|]. intros _. exact HK.
    - exists 0. split; [lra|]. intros FR. exfalso. apply NF. apply Forall_forall. intros f Hf. apply in_seq in Hf. apply FR. lia. }
  exists K. split; [assumption|]. intros num_b n ccc dc ac i HA T EC ED EA Hi. assert (FR : forall f, (1 <= f <= q_num_f cct)%nat -> 0 < q_freq cct f) by apply HA.
  replace (delivered vj cct dc ac i) with (absorbed vj cct resp i num_b).
  2:{ unfold absorbed, delivered. rewrite fold_rsum. f_equal.
      - f_equal. rewrite (dc_row vj cct resp num_b dc HA ED i Hi). rewrite alone_dc by (auto using tones_len, round4_0). rewrite tones_len. reflexivity.
      - apply rsum_ext. intros f Hf. rewrite fold_rsum. apply rsum_ext. intros p Hp. apply in_seq in Hf. apply in_seq in Hp. f_equal. f_equal. f_equal.
        assert (E := EA f p ltac:(lia) ltac:(lia)). apply qt_rows in E; [|assumption]. cbn [map] in E. injection E as E. rewrite E. unfold spec_row. rewrite nth_tab by assumption. symmetry. apply alone_current; [apply tones_len|apply AA; lia| |].
        + apply in_index_vectors. split; [unfold single; now rewrite map_length, seq_length|]. apply Forall_forall. intros k Hk. unfold single in Hk. apply in_map_iff in Hk. destruct Hk as [f' [<- _]]. destruct (Nat.eqb _ _); lia.
        + f_equal. unfold single, freqs. rewrite dot_single; [reflexivity|apply seq_NoDup|apply in_seq; lia]. }
  replace (mean (photons ccc num_b (q_num_f cct) i) (fun ks => let v := q_vb cct i + dot ks (freqs cct) in v * Im (resp v))) with (photon_power vj cct resp i num_b).
  { apply HK; try assumption. apply in_seq. lia. }
  unfold photon_power, photons. apply (mean_weights (seq 1 (q_num_f cct)) (fun f => nth (f - 1) (nbtuple num_b (q_num_f cct)) O)). intros f k Hf Lk. apply in_seq in Hf. f_equal. f_equal. symmetry.
  apply coefficient_value; try assumption; [now apply args_enough|lia|]. assert (Y := nb_le (nbtuple num_b (q_num_f cct)) (f - 1)). lia.
Qed.
Theorem passive_limit vj cct resp A B q : 0 <= B -> 0 < q -> (forall v, Cmod (resp v) <= A * exp (B * Rabs v)) -> (forall v, 0 <= v * Im (resp v)) -> alone cct 0 (repeat 0%Z (q_num_f cct)) ->
  (forall f p, (1 <= f <= q_num_f cct)%nat -> (1 <= p <= q_num_p cct)%nat -> alone cct (INR p * q_freq cct f) (single (q_num_f cct) f p)) ->
  exists K, 0 <= K /\ forall num_b n dc ac i, args_ok cct num_b -> Forall (le n) (truncations num_b (q_num_f cct)) ->
  qtcurrent besselJ vj cct resp (FScalar 0) num_b None = Ok (QReal dc) ->
  (forall f p, (1 <= f <= q_num_f cct)%nat -> (1 <= p <= q_num_p cct)%nat -> qtcurrent besselJ vj cct resp (FList [INR p * q_freq cct f]) num_b None = Ok (QRows [ac f p])) -> (i < q_npts cct)%nat ->
  - (K * q ^ n) <= delivered vj cct dc ac i.
Proof.
  intros B0 Q H PA AD AA. destruct (balance vj cct resp A B q B0 Q H AD AA) as [K [K0 HK]]. exists K. split; [assumption|]. intros num_b n dc ac i HA T ED EA Hi.
  destruct (calculate_phase_factor_coeff_spec besselJ vj (q_freq cct) (q_num_f cct) (q_num_p cct) num_b) as [ccc [EC _]]; [destruct HA as [X _]; lia|apply HA|now apply args_enough|].
  assert (X := HK num_b n ccc dc ac i HA T EC ED EA Hi). set (m := mean _ _) in X. assert (M : 0 <= m). { apply mean_nonneg. - intros x Hx k. unfold photons in Hx. apply in_map_iff in Hx. destruct Hx as [f [<- _]]. cbn [snd]. apply pow2_ge_0. - intros ks. apply PA. }
  unfold Rabs in X. destruct (Rcase_abs _); lra.
Qed.
