(** Symmetries of the multi-tone formula (Spec_QtCurrent.v). *)
From Coq Require Import List ZArith Lia Bool Arith Reals Lra Permutation.
From Coquelicot Require Import Complex.
From Verif Require Import Base Sums Round Model_QtCurrent Spec_QtCurrent Spec_QtApi Proof_QtCurrent Proof_QtCurrent2.
Import ListNotations.
Open Scope C_scope.

Lemma Forall2_length {A B} {P : A -> B -> Prop} {l l'} : Forall2 P l l' -> length l = length l'.
Proof. induction 1; simpl; congruence. Qed.

(** ** Extensionality *)

Definition tone_eq (t t' : tone) : Prop :=
  t_b t = t_b t' /\ forall k, (- Z.of_nat (t_b t) <= k <= Z.of_nat (t_b t))%Z -> t_C t k = t_C t' k.

Lemma tone_eq_refl t : tone_eq t t.
Proof. split; auto. Qed.

Lemma cut_ext b f g k : (forall k, (- Z.of_nat b <= k <= Z.of_nat b)%Z -> f k = g k) -> cut b f k = cut b g k.
Proof.
  intros H. rewrite !cut_within. destruct (within b k) eqn:W; [|reflexivity]. apply H. now apply within_spec.
Qed.

Lemma rs_sum_ext ts ts' : Forall2 tone_eq ts ts' -> forall a rk rk',
  (forall ks, rk ks = rk' ks) -> rs_sum ts a rk = rs_sum ts' a rk'.
Proof.
  induction 1 as [|t t' ts ts' [Hb HC] H IH]; intros a rk rk' Hr; [simpl; apply Hr|].
  destruct a as [|a0 a]; [simpl; apply Hr|]. simpl. rewrite <- Hb. apply csum_ext. intros k Hk. apply in_sym in Hk.
  rewrite HC by assumption. rewrite (cut_ext _ _ _ _ HC). f_equal. apply IH. intros; apply Hr.
Qed.

Lemma coeff_ext ts ts' a rk rk' : Forall2 tone_eq ts ts' -> (forall ks, rk ks = rk' ks) ->
  coeff ts a rk = coeff ts' a rk'.
Proof. intros H Hr. unfold coeff. now rewrite !(rs_sum_ext ts ts' H _ rk rk' Hr). Qed.

Lemma current_ext P ts ts' fs vb resp resp' w : Forall2 tone_eq ts ts' -> (forall x, resp x = resp' x) ->
  current P ts fs vb resp w = current P ts' fs vb resp' w.
Proof.
  intros H Hr. unfold current. rewrite (Forall2_length H). apply csum_ext. intros a _.
  destruct (same_freq _ _); [|reflexivity]. apply coeff_ext; auto.
Qed.

Lemma index_vectors_length P n a : In a (index_vectors P n) -> length a = n.
Proof.
  revert a. induction n as [|n IH]; simpl; intros a.
  - intros [<-|[]]; reflexivity.
  - rewrite in_flat_map. intros [a0 [_ H]]. apply in_map_iff in H. destruct H as [a' [<- H]]. simpl. now rewrite (IH a').
Qed.

Lemma in_index_vectors P n a : In a (index_vectors P n) <->
  length a = n /\ Forall (fun x => (- Z.of_nat P <= x <= Z.of_nat P)%Z) a.
Proof.
  revert a. induction n as [|n IH]; intros a; simpl.
  - split. { intros [<-|[]]; auto. } intros [H _]. destruct a; [now left|discriminate].
  - rewrite in_flat_map. split.
    + intros [a0 [H0 H]]. apply in_map_iff in H. destruct H as [a' [<- H]]. apply IH in H. destruct H as [Hl H].
      apply in_sym in H0. simpl. rewrite Hl. auto.
    + intros [Hl H]. destruct a as [|a0 a]; [discriminate|]. inversion H; subst. exists a0.
      rewrite in_sym. split; [assumption|]. apply in_map. apply IH. auto.
Qed.

(** ** Negative frequencies *)

Lemma csum_index_opp P n f : csum (index_vectors P n) (fun a => f (map Z.opp a)) = csum (index_vectors P n) f.
Proof.
  revert f. induction n as [|n IH]; intros f.
  - simpl. reflexivity.
  - rewrite !csum_index_S. rewrite <- (csum_sym_opp P). apply csum_ext. intros a0 _. simpl.
    rewrite (IH (fun a => f ((- - a0)%Z :: a))). now rewrite Z.opp_involutive.
Qed.

Lemma map_opp_opp a : map Z.opp (map Z.opp a) = a.
Proof. rewrite map_map. rewrite <- (map_id a) at 2. apply map_ext. apply Z.opp_involutive. Qed.

Lemma dot_opp a fs : dot (map Z.opp a) fs = (- dot a fs)%R.
Proof.
  revert fs. induction a as [|a0 a IH]; intros [|f fs]; simpl; try ring. rewrite IH, opp_IZR. ring.
Qed.

Lemma zeros_opp a : forallb (fun x => x =? 0)%Z (map Z.opp a) = forallb (fun x => x =? 0)%Z a.
Proof.
  induction a as [|a0 a IH]; simpl; [reflexivity|]. rewrite IH. f_equal.
  destruct (Z.eqb_spec (- a0) 0), (Z.eqb_spec a0 0); lia || reflexivity.
Qed.

Lemma coeff_conj ts a rk : coeff ts (map Z.opp a) rk = Cconj (coeff ts a rk).
Proof.
  unfold coeff. rewrite zeros_opp, map_opp_opp. destruct (forallb _ a) eqn:Z0.
  - assert (E : map Z.opp a = a).
    { rewrite forallb_forall in Z0. rewrite <- (map_id a) at 2. apply map_ext_in. intros x Hx.
      apply Z0 in Hx. apply Z.eqb_eq in Hx. now subst. }
    rewrite E, Cconj_R. reflexivity.
  - unfold Cconj; simpl. f_equal; ring.
Qed.

Lemma same_freq_opp x w : same_freq (- x) (- w) = same_freq x w.
Proof.
  unfold same_freq. rewrite !round4_opp. destruct (Req_EM_T (round4 x) (round4 w)), (Req_EM_T (- round4 x) (- round4 w));
    try reflexivity; exfalso; lra.
Qed.

Lemma current_conj P ts fs vb resp w : current P ts fs vb resp (- w) = Cconj (current P ts fs vb resp w).
Proof.
  unfold current. rewrite <- csum_index_opp. rewrite csum_conj. apply csum_ext. intros a _.
  rewrite dot_opp, same_freq_opp. destruct (same_freq _ _); [apply coeff_conj|now rewrite Cconj_R].
Qed.

Lemma current_dc_real P ts fs vb resp w : round4 w = 0%R -> Im (current P ts fs vb resp w) = 0%R.
Proof.
  intros H. assert (E : current P ts fs vb resp w = Cconj (current P ts fs vb resp w)).
  { rewrite <- current_conj. rewrite <- (current_round4 _ _ _ _ _ w), <- (current_round4 _ _ _ _ _ (- w)).
    rewrite round4_opp, H. now rewrite Ropp_0. }
  apply (f_equal Im) in E. unfold Cconj in E; simpl in E. unfold Im in *. lra.
Qed.

(** ** Linearity *)

Lemma rs_sum_linear ts : forall a rk1 rk2 (x y : R),
  rs_sum ts a (fun ks => RtoC x * rk1 ks + RtoC y * rk2 ks) = RtoC x * rs_sum ts a rk1 + RtoC y * rs_sum ts a rk2.
Proof.
  induction ts as [|t ts IH]; intros a rk1 rk2 x y; [reflexivity|]. destruct a as [|a0 a]; [reflexivity|].
  simpl. rewrite <- !csum_scal_l, <- csum_plus. apply csum_ext. intros k _.
  rewrite (IH a (fun ks => rk1 (k :: ks)) (fun ks => rk2 (k :: ks))). ring.
Qed.

Lemma coeff_linear ts a rk1 rk2 (x y : R) :
  coeff ts a (fun ks => RtoC x * rk1 ks + RtoC y * rk2 ks) = RtoC x * coeff ts a rk1 + RtoC y * coeff ts a rk2.
Proof.
  unfold coeff. rewrite !rs_sum_linear. destruct (forallb _ a).
  - unfold RtoC, Cplus, Cmult, Im, Re; simpl. f_equal; ring.
  - unfold RtoC, Cplus, Cmult, Im, Re; simpl. f_equal; ring.
Qed.

Lemma current_linear P ts fs vb r1 r2 (x y : R) w :
  current P ts fs vb (fun v => RtoC x * r1 v + RtoC y * r2 v) w =
  RtoC x * current P ts fs vb r1 w + RtoC y * current P ts fs vb r2 w.
Proof.
  unfold current. rewrite <- !csum_scal_l, <- csum_plus. apply csum_ext. intros a _.
  destruct (same_freq _ _); [|ring].
  apply (coeff_linear ts a (fun ks => r1 (vb + dot ks fs)%R) (fun ks => r2 (vb + dot ks fs)%R)).
Qed.

(** ** Idle tones *)

Definition delta (k : Z) : C := if (k =? 0)%Z then RtoC 1 else RtoC 0.

Definition idle (t : tone) : Prop :=
  forall k, (- Z.of_nat (t_b t) <= k <= Z.of_nat (t_b t))%Z -> t_C t k = delta k.

Lemma cut_delta t k : idle t -> cut (t_b t) (t_C t) k = delta k.
Proof.
  intros H. rewrite cut_within. destruct (within (t_b t) k) eqn:W.
  - apply H. now apply within_spec.
  - unfold delta. destruct (Z.eqb_spec k 0) as [->|]; [|reflexivity].
    assert (W0 : within (t_b t) 0 = true) by (apply within_spec; lia). congruence.
Qed.

Lemma csum_delta b f : csum (sym b) (fun k => delta k * f k) = f 0%Z.
Proof.
  rewrite (csum_single (sym b) 0%Z).
  - unfold delta. simpl. ring.
  - apply sym_NoDup.
  - apply in_sym. lia.
  - intros k _ Hk. unfold delta. destruct (Z.eqb_spec k 0); [contradiction|ring].
Qed.

Lemma Cconj_delta k : Cconj (delta k) = delta k.
Proof. unfold delta. destruct (k =? 0)%Z; apply Cconj_R. Qed.

Lemma rs_sum_idle_hd t ts a0 a rk : idle t ->
  rs_sum (t :: ts) (a0 :: a) rk = delta a0 * rs_sum ts a (fun ks => rk (0%Z :: ks)).
Proof.
  intros H. simpl.
  rewrite (csum_ext _ _ (fun k => delta k * (Cconj (delta (k + a0)) * rs_sum ts a (fun ks => rk (k :: ks))))).
  - rewrite csum_delta. rewrite Z.add_0_l, Cconj_delta. reflexivity.
  - intros k Hk. apply in_sym in Hk. rewrite H by assumption. rewrite cut_delta by assumption. ring.
Qed.

Lemma delta_opp a : delta (- a) = delta a.
Proof. unfold delta. destruct (Z.eqb_spec (- a) 0), (Z.eqb_spec a 0); lia || reflexivity. Qed.

Lemma coeff_idle_hd t ts a0 a rk : idle t ->
  coeff (t :: ts) (a0 :: a) rk = delta a0 * coeff ts a (fun ks => rk (0%Z :: ks)).
Proof.
  intros H. unfold coeff. cbn [map forallb]. rewrite !(rs_sum_idle_hd t) by assumption. rewrite delta_opp.
  unfold delta. destruct (a0 =? 0)%Z; simpl andb.
  - rewrite !Cmult_1_l. destruct (forallb _ a); rewrite ?Cmult_1_l; reflexivity.
  - rewrite !Cmult_0_l. unfold RtoC; simpl. f_equal; ring.
Qed.

Lemma current_idle_hd P t ts f fs vb resp w : idle t ->
  current P (t :: ts) (f :: fs) vb resp w = current P ts fs vb resp w.
Proof.
  intros H. unfold current. cbn [length]. rewrite csum_index_S.
  rewrite (csum_ext _ _ (fun a0 => delta a0 * csum (index_vectors P (length ts)) (fun a =>
     if same_freq (IZR a0 * f + dot a fs) w then coeff ts a (fun ks => resp (vb + dot ks fs)%R) else RtoC 0))).
  - rewrite csum_delta. apply csum_ext. intros a _. now rewrite Rmult_0_l, Rplus_0_l.
  - intros a0 _. rewrite <- csum_scal_l. apply csum_ext. intros a _. cbn [dot]. destruct (same_freq _ _); [|ring].
    rewrite coeff_idle_hd by assumption. f_equal. apply coeff_ext.
    + clear. induction ts; constructor; auto using tone_eq_refl.
    + intros ks. cbn [dot]. now rewrite Rmult_0_l, Rplus_0_l.
Qed.

Lemma current_nil P vb resp w fs : current P [] fs vb resp w = if same_freq 0 w then RtoC (Im (resp vb)) else RtoC 0.
Proof.
  unfold current. cbn [length]. rewrite csum_index_0. cbn [dot]. destruct (same_freq 0 w); [|reflexivity].
  unfold coeff. simpl. now rewrite Rplus_0_r.
Qed.

Lemma current_all_idle P ts : forall fs vb resp w, Forall idle ts -> length fs = length ts ->
  current P ts fs vb resp w = if same_freq 0 w then RtoC (Im (resp vb)) else RtoC 0.
Proof.
  induction ts as [|t ts IH]; intros fs vb resp w H L.
  - apply current_nil.
  - destruct fs as [|f fs]; [discriminate|]. inversion H; subst. rewrite current_idle_hd by assumption.
    apply IH; [assumption|]. now inversion L.
Qed.

(** ** Permuting tones *)

Definition ztone := (tone * R * Z)%type.

Fixpoint zip2 (ts : list tone) (fs : list R) : list (tone * R) :=
  match ts, fs with t :: ts', f :: fs' => (t, f) :: zip2 ts' fs' | _, _ => [] end.

Fixpoint zipa (l : list (tone * R)) (a : list Z) : list ztone :=
  match l, a with x :: l', a0 :: a' => (x, a0) :: zipa l' a' | _, _ => [] end.

Fixpoint zrs (l : list ztone) (neg : bool) (resp : R -> C) (v : R) : C :=
  match l with
  | [] => resp v
  | (t, f, a0) :: l' => csum (sym (t_b t)) (fun k =>
      t_C t k * Cconj (cut (t_b t) (t_C t) (k + (if neg then - a0 else a0))%Z) * zrs l' neg resp (v + IZR k * f)%R)
  end.

Fixpoint zdot (l : list ztone) : R := match l with [] => 0%R | (_, f, a0) :: l' => (IZR a0 * f + zdot l')%R end.
Definition zzero (l : list ztone) : bool := forallb (fun x => (snd x =? 0)%Z) l.

Definition zcoeff (l : list ztone) (resp : R -> C) (v : R) : C :=
  let p := zrs l false resp v in let m := zrs l true resp v in
  if zzero l then RtoC (Im p) else ((Im p + Im m)%R, (- (Re p - Re m))%R).

Definition zterm (resp : R -> C) (v w : R) (l : list ztone) : C :=
  if same_freq (zdot l) w then zcoeff l resp v else RtoC 0.

Lemma zrs_perm neg resp l l' : Permutation l l' -> forall v, zrs l neg resp v = zrs l' neg resp v.
Proof.
  induction 1 as [|[[t f] a] l l' H IH|[[t f] a] [[t' f'] a'] l|l l' l'' H1 IH1 H2 IH2]; intros v; simpl.
  - reflexivity.
  - apply csum_ext. intros k _. now rewrite IH.
  - rewrite (csum_ext (sym (t_b t')) _ (fun k' => csum (sym (t_b t)) (fun k =>
       t_C t' k' * Cconj (cut (t_b t') (t_C t') (k' + (if neg then - a' else a'))%Z) *
       (t_C t k * Cconj (cut (t_b t) (t_C t) (k + (if neg then - a else a))%Z) * zrs l neg resp (v + IZR k' * f' + IZR k * f)%R)))).
    2:{ intros k' _. rewrite csum_scal_l. reflexivity. }
    rewrite csum_swap. apply csum_ext. intros k _. rewrite <- csum_scal_l. apply csum_ext. intros k' _.
    replace (v + IZR k' * f' + IZR k * f)%R with (v + IZR k * f + IZR k' * f')%R by ring. ring.
  - now rewrite IH1, IH2.
Qed.

Lemma zdot_perm l l' : Permutation l l' -> zdot l = zdot l'.
Proof.
  induction 1 as [|[[t f] a] l l' H IH|[[t f] a] [[t' f'] a'] l|l l' l'' H1 IH1 H2 IH2]; simpl.
  - reflexivity.
  - now rewrite IH.
  - ring.
  - now rewrite IH1, IH2.
Qed.

Lemma zzero_perm l l' : Permutation l l' -> zzero l = zzero l'.
Proof.
  unfold zzero. induction 1; simpl; try congruence. rewrite !andb_assoc. f_equal. apply andb_comm.
Qed.

Lemma zterm_perm resp v w l l' : Permutation l l' -> zterm resp v w l = zterm resp v w l'.
Proof.
  intros H. unfold zterm, zcoeff. rewrite (zdot_perm _ _ H), (zzero_perm _ _ H), !(zrs_perm _ resp _ _ H). reflexivity.
Qed.

Definition perm_inv (h : list ztone -> C) := forall l l', Permutation l l' -> h l = h l'.

Lemma csum_index_perm P (l l' : list (tone * R)) : Permutation l l' -> forall h, perm_inv h ->
  csum (index_vectors P (length l)) (fun a => h (zipa l a)) = csum (index_vectors P (length l')) (fun a => h (zipa l' a)).
Proof.
  induction 1 as [|x l l' H IH|x y l|l l' l'' H1 IH1 H2 IH2]; intros h Hh.
  - reflexivity.
  - cbn [length]. rewrite !csum_index_S. apply csum_ext. intros a0 _. cbn [zipa].
    apply (IH (fun z => h ((x, a0) :: z))). intros z z' Hz. apply Hh. now constructor.
  - cbn [length]. rewrite !csum_index_S.
    rewrite (csum_ext _ _ (fun a0 => csum (sym P) (fun b0 => csum (index_vectors P (length l)) (fun a =>
       h ((y, a0) :: (x, b0) :: zipa l a))))) by (intros; rewrite csum_index_S; reflexivity).
    rewrite csum_swap. apply csum_ext. intros b0 _. rewrite csum_index_S. apply csum_ext. intros a0 _.
    apply csum_ext. intros a _. cbn [zipa]. apply Hh. constructor.
  - rewrite IH1 by assumption. now apply IH2.
Qed.

Lemma zrs_rs_sum ts : forall fs a resp v neg, length fs = length ts -> length a = length ts ->
  zrs (zipa (zip2 ts fs) a) neg resp v =
  rs_sum ts (if neg then map Z.opp a else a) (fun ks => resp (v + dot ks fs)%R).
Proof.
  induction ts as [|t ts IH]; intros [|f fs] [|a0 a] resp v neg Lf La; try discriminate.
  - simpl. now rewrite Rplus_0_r.
  - cbn [zip2 zipa zrs]. destruct neg; cbn [map rs_sum]; apply csum_ext; intros k _; f_equal;
      (rewrite IH by (simpl in *; lia)); apply rs_sum_ext;
      try (clear; induction ts; constructor; auto using tone_eq_refl); intros ks; cbn [dot]; f_equal; ring.
Qed.

Lemma zdot_dot ts : forall fs a, length fs = length ts -> length a = length ts ->
  zdot (zipa (zip2 ts fs) a) = dot a fs.
Proof.
  induction ts as [|t ts IH]; intros [|f fs] [|a0 a] Lf La; try discriminate; [reflexivity|].
  cbn [zip2 zipa zdot dot]. f_equal. apply IH; simpl in *; lia.
Qed.

Lemma zzero_zeros ts : forall fs a, length fs = length ts -> length a = length ts ->
  zzero (zipa (zip2 ts fs) a) = forallb (fun x => x =? 0)%Z a.
Proof.
  induction ts as [|t ts IH]; intros [|f fs] [|a0 a] Lf La; try discriminate; [reflexivity|].
  cbn [zip2 zipa]. unfold zzero. cbn [forallb snd]. f_equal. apply IH; simpl in *; lia.
Qed.

Lemma zip2_length ts : forall fs, length fs = length ts -> length (zip2 ts fs) = length ts.
Proof. induction ts; intros [|f fs] H; simpl in *; try discriminate; auto. Qed.

Lemma current_zipped P ts fs vb resp w : length fs = length ts ->
  current P ts fs vb resp w = csum (index_vectors P (length (zip2 ts fs))) (fun a => zterm resp vb w (zipa (zip2 ts fs) a)).
Proof.
  intros L. unfold current. rewrite zip2_length by assumption. apply csum_ext. intros a Ha.
  apply index_vectors_length in Ha. unfold zterm, zcoeff, coeff. rewrite zdot_dot, zzero_zeros by lia.
  rewrite !zrs_rs_sum by lia. reflexivity.
Qed.

Lemma current_perm P ts fs ts' fs' vb resp w : length fs = length ts -> length fs' = length ts' ->
  Permutation (zip2 ts fs) (zip2 ts' fs') ->
  current P ts fs vb resp w = current P ts' fs' vb resp w.
Proof.
  intros L L' H. rewrite !current_zipped by assumption. apply (csum_index_perm P _ _ H (zterm resp vb w)).
  intros l l'. apply zterm_perm.
Qed.

(** ** Gauge transformations *)

(** Coefficient C_k multiplied by exp(-i k theta). *)
Definition gauged (t t' : tone) (theta : R) : Prop :=
  t_b t' = t_b t /\
  forall k, (- Z.of_nat (t_b t) <= k <= Z.of_nat (t_b t))%Z -> t_C t' k = cis (- (IZR k * theta)) * t_C t k.

Lemma cis_add x y : cis (x + y) = cis x * cis y.
Proof. unfold cis, Cmult; simpl. rewrite cos_plus, sin_plus. f_equal; ring. Qed.
Lemma cis_0 : cis 0 = RtoC 1.
Proof. unfold cis, RtoC. now rewrite cos_0, sin_0. Qed.
Lemma cis_inv x : cis (- x) * cis x = RtoC 1.
Proof. rewrite <- cis_add. replace (- x + x)%R with 0%R by ring. apply cis_0. Qed.

Fixpoint all_gauged (ts ts' : list tone) (thetas : list R) : Prop :=
  match ts, ts', thetas with
  | [], [], [] => True
  | t :: ts, t' :: ts', th :: thetas => gauged t t' th /\ all_gauged ts ts' thetas
  | _, _, _ => False
  end.

Lemma rs_sum_gauged ts : forall ts' thetas a rk, all_gauged ts ts' thetas -> length a = length ts ->
  rs_sum ts' a rk = cis (dot a thetas) * rs_sum ts a rk.
Proof.
  induction ts as [|t ts IH]; intros [|t' ts'] [|th thetas] a rk H L; simpl in H; try contradiction.
  - simpl. destruct a; simpl; rewrite cis_0; ring.
  - destruct H as [[Hb HC] H]. destruct a as [|a0 a]; [discriminate|].
    cbn [rs_sum dot]. rewrite Hb, <- csum_scal_l. apply csum_ext. intros k Hk. apply in_sym in Hk.
    rewrite (IH ts' thetas a) by (auto; simpl in L; lia). rewrite HC by assumption.
    rewrite (cut_within _ (t_C t')), (cut_within _ (t_C t)). destruct (within (t_b t) (k + a0)) eqn:W.
    + apply within_spec in W. rewrite HC by assumption. rewrite Cconj_mult, Cconj_cis, Ropp_involutive, plus_IZR.
      rewrite cis_add, Rmult_plus_distr_r, (cis_add (IZR k * th)).
      assert (E := cis_inv (IZR k * th)).
      transitivity ((cis (- (IZR k * th)) * cis (IZR k * th)) *
        (cis (IZR a0 * th) * cis (dot a thetas) * (t_C t k * Cconj (t_C t (k + a0)%Z) * rs_sum ts a (fun ks => rk (k :: ks))))).
      * ring.
      * rewrite E. ring.
    + rewrite Cconj_R. ring.
Qed.

Lemma all_gauged_length ts : forall ts' th, all_gauged ts ts' th -> length ts' = length ts /\ length th = length ts.
Proof.
  induction ts as [|t ts IH]; intros [|t' ts'] [|th ths] H; simpl in H; try contradiction; auto.
  destruct H as [_ H]. apply IH in H. simpl. lia.
Qed.

(** I(a) = -j p + j conj m. *)
Lemma combine_cx p m : ((Im p + Im m)%R, (- (Re p - Re m))%R) = - Ci * p + Ci * Cconj m.
Proof. unfold Cplus, Cmult, Copp, Ci, Cconj, Im, Re; simpl. f_equal; ring. Qed.

Lemma coeff_gauged ts ts' thetas a rk : all_gauged ts ts' thetas -> length a = length ts ->
  coeff ts' a rk = cis (dot a thetas) * coeff ts a rk.
Proof.
  intros H L. unfold coeff. rewrite (rs_sum_gauged ts ts' thetas a rk H L).
  rewrite (rs_sum_gauged ts ts' thetas (map Z.opp a) rk H) by now rewrite map_length.
  rewrite dot_opp. destruct (forallb _ a) eqn:Z0.
  - assert (D : dot a thetas = 0%R).
    { clear -Z0. revert thetas. induction a as [|a0 a IH]; intros [|th ths]; simpl in *; try reflexivity.
      apply andb_true_iff in Z0. destruct Z0 as [Z1 Z2]. apply Z.eqb_eq in Z1. subst. rewrite IH by assumption. ring. }
    rewrite D, cis_0, !Cmult_1_l. reflexivity.
  - rewrite !combine_cx, Cconj_mult, Cconj_cis, Ropp_involutive. ring.
Qed.

Lemma current_gauged P ts ts' thetas fs vb resp w psi : all_gauged ts ts' thetas ->
  (forall a, In a (index_vectors P (length ts)) -> same_freq (dot a fs) w = true -> dot a thetas = psi) ->
  current P ts' fs vb resp w = cis psi * current P ts fs vb resp w.
Proof.
  intros H Hw. unfold current. destruct (all_gauged_length _ _ _ H) as [L _]. rewrite L, <- csum_scal_l.
  apply csum_ext. intros a Ha. destruct (same_freq _ _) eqn:E; [|ring].
  rewrite (coeff_gauged ts ts' thetas) by (auto; eapply index_vectors_length; eauto).
  now rewrite (Hw a Ha E).
Qed.

(** ** Reversal *)

Definition reversed (t t' : tone) : Prop :=
  t_b t' = t_b t /\
  forall k, (- Z.of_nat (t_b t) <= k <= Z.of_nat (t_b t))%Z -> t_C t' k = Cconj (t_C t (- k)%Z).

Lemma rs_sum_reversed ts ts' : Forall2 reversed ts ts' -> forall a rk rk', length a = length ts ->
  (forall ks, length ks = length ts -> rk' ks = Cconj (rk (map Z.opp ks))) ->
  rs_sum ts' a rk' = Cconj (rs_sum ts (map Z.opp a) rk).
Proof.
  induction 1 as [|t t' ts ts' [Hb HC] H IH]; intros a rk rk' L Hr.
  - destruct a; [|discriminate]. simpl. now rewrite Hr by reflexivity.
  - destruct a as [|a0 a]; [discriminate|]. cbn [map rs_sum]. rewrite Hb. rewrite <- csum_sym_opp, csum_conj.
    apply csum_ext. intros k Hk. apply in_sym in Hk.
    rewrite (IH a (fun ks => rk (k :: ks))) by
      (try (simpl in L; lia); intros ks Lk; rewrite Hr by (simpl; lia); simpl; now rewrite Z.opp_involutive).
    rewrite HC by lia. rewrite Z.opp_involutive. rewrite !Cconj_mult. f_equal. f_equal.
    rewrite !cut_within. replace (within (t_b t) (- k + a0)) with (within (t_b t) (k + - a0)).
    + destruct (within (t_b t) (k + - a0)) eqn:W; [|now rewrite !Cconj_R]. apply within_spec in W.
      rewrite HC by lia. f_equal. f_equal. f_equal. lia.
    + destruct (within (t_b t) (k + - a0)) eqn:W1, (within (t_b t) (- k + a0)) eqn:W2; try reflexivity.
      * apply within_spec in W1. assert (W3 : within (t_b t) (- k + a0) = true) by (apply within_spec; lia). congruence.
      * apply within_spec in W2. assert (W3 : within (t_b t) (k + - a0) = true) by (apply within_spec; lia). congruence.
Qed.

Lemma coeff_reversed ts ts' a rk rk' : Forall2 reversed ts ts' -> length a = length ts ->
  (forall ks, length ks = length ts -> rk' ks = Cconj (rk (map Z.opp ks))) ->
  coeff ts' a rk' = - coeff ts a rk.
Proof.
  intros H L Hr. unfold coeff. rewrite (rs_sum_reversed ts ts' H a rk rk' L Hr).
  rewrite (rs_sum_reversed ts ts' H (map Z.opp a) rk rk') by (auto; now rewrite map_length).
  rewrite map_opp_opp. destruct (forallb _ a) eqn:Z0.
  - assert (E : map Z.opp a = a).
    { rewrite forallb_forall in Z0. rewrite <- (map_id a) at 2. apply map_ext_in. intros x Hx.
      apply Z0 in Hx. apply Z.eqb_eq in Hx. now subst. }
    rewrite E. unfold Cconj, RtoC, Copp; simpl. f_equal. ring.
  - unfold Cconj, Copp, Im, Re; simpl. f_equal; ring.
Qed.

Lemma current_reversed P ts ts' fs vb resp resp' w : Forall2 reversed ts ts' -> length fs = length ts ->
  (forall x, resp' (- x)%R = Cconj (resp x)) ->
  current P ts' fs (- vb) resp' w = - current P ts fs vb resp w.
Proof.
  intros H L Hr. unfold current. rewrite <- (Forall2_length H). rewrite <- csum_opp. apply csum_ext. intros a Ha.
  apply index_vectors_length in Ha. destruct (same_freq _ _); [|now rewrite <- RtoC_opp, Ropp_0].
  apply coeff_reversed; [assumption|assumption|]. intros ks Lk. rewrite <- Hr. f_equal. rewrite dot_opp. ring.
Qed.

(** ** Harmonics beyond the last driven one *)

Lemma cut_cut b f k : cut b (cut b f) k = cut b f k.
Proof. unfold cut. destruct (Z.abs k <=? Z.of_nat b)%Z; reflexivity. Qed.

Lemma phase_factor_idle_S B b A p k : (1 <= p)%nat -> (forall n, A (S p) n = delta n) ->
  (- Z.of_nat B <= k <= Z.of_nat B)%Z -> phase_factor B b A (S p) k = phase_factor B b A p k.
Proof.
  intros Hp HA Hk. rewrite phase_factor_S by assumption.
  rewrite (csum_ext _ _ (fun l => delta l * cut B (phase_factor B b A p) (k - Z.of_nat (S p) * l)%Z)).
  - rewrite csum_delta. rewrite Z.mul_0_r, Z.sub_0_r. now apply cut_in.
  - intros l _. rewrite HA. ring.
Qed.

Lemma phase_factor_idle B b A p q k : (1 <= p)%nat -> (p <= q)%nat ->
  (forall m n, (p < m <= q)%nat -> A m n = delta n) ->
  (- Z.of_nat B <= k <= Z.of_nat B)%Z -> phase_factor B b A q k = phase_factor B b A p k.
Proof.
  intros Hp Hq. induction Hq as [|q Hq IH]; intros HA Hk; [reflexivity|].
  rewrite phase_factor_idle_S; [apply IH; [intros; apply HA; lia|assumption]|lia|intros; apply HA; lia|assumption].
Qed.

(** With no drive at all the coefficients are delta_k0. *)
Lemma phase_factor_delta B b A p k : (1 <= p)%nat -> (b <= B)%nat ->
  (forall m n, (1 <= m <= p)%nat -> A m n = delta n) ->
  (- Z.of_nat B <= k <= Z.of_nat B)%Z -> phase_factor B b A p k = delta k.
Proof.
  intros Hp Hb HA Hk. rewrite (phase_factor_idle B b A 1 p) by (try lia; auto; intros; apply HA; lia).
  rewrite phase_factor_1. rewrite cut_within. destruct (within b k) eqn:W.
  - apply HA. lia.
  - unfold delta. destruct (Z.eqb_spec k 0) as [->|]; [|reflexivity].
    assert (W0 : within b 0 = true) by (apply within_spec; lia). congruence.
Qed.

(** The intermediate truncation B plays no role for up to two harmonics. *)
Lemma phase_factor_B_12 B B' b A p k : (p <= 2)%nat -> (b <= B)%nat -> (b <= B')%nat ->
  phase_factor B b A p k = phase_factor B' b A p k.
Proof.
  intros Hp HB HB'. destruct p as [|[|[|p]]]; [reflexivity|reflexivity| |lia].
  rewrite !phase_factor_S by lia. apply csum_ext. intros l _. f_equal. rewrite phase_factor_1.
  unfold cut. destruct (Z.leb_spec (Z.abs (k - Z.of_nat 2 * l)) (Z.of_nat b)),
    (Z.leb_spec (Z.abs (k - Z.of_nat 2 * l)) (Z.of_nat B)), (Z.leb_spec (Z.abs (k - Z.of_nat 2 * l)) (Z.of_nat B'));
    try reflexivity; lia.
Qed.

(** Convolution of gauged / reversed rows. *)
Lemma phase_factor_gauged B b A A' theta p k : (1 <= p)%nat ->
  (forall m n, (1 <= m <= p)%nat -> A' m n = cis (- (IZR n * (INR m * theta))) * A m n) ->
  phase_factor B b A' p k = cis (- (IZR k * theta)) * phase_factor B b A p k.
Proof.
  intros Hp. revert k. induction p as [|p IH]; [lia|]. intros k HA. destruct (Nat.eq_dec p 0) as [->|Np].
  - rewrite !phase_factor_1. rewrite !cut_within. destruct (within b k); [|ring].
    rewrite HA by lia. simpl INR. now rewrite Rmult_1_l.
  - rewrite !phase_factor_S by lia. rewrite <- csum_scal_l. apply csum_ext. intros l _.
    rewrite (cut_within B (phase_factor B b A' p)), (cut_within B (phase_factor B b A p)).
    destruct (within B _); [|ring]. rewrite IH by (try lia; intros; apply HA; lia). rewrite HA by lia.
    replace (- (IZR k * theta))%R with
      (- (IZR (k - Z.of_nat (S p) * l) * theta) + - (IZR l * (INR (S p) * theta)))%R.
    + rewrite cis_add. ring.
    + rewrite minus_IZR, mult_IZR, INR_IZR_INZ. ring.
Qed.

Lemma phase_factor_reversed B b A A' p k : (1 <= p)%nat ->
  (forall m n, (1 <= m <= p)%nat -> A' m n = Cconj (A m (- n)%Z)) ->
  phase_factor B b A' p k = Cconj (phase_factor B b A p (- k)%Z).
Proof.
  assert (W : forall b k, within b (- k) = within b k).
  { intros b0 k0. destruct (within b0 (- k0)) eqn:W1, (within b0 k0) eqn:W2; try reflexivity.
    - apply within_spec in W1. assert (W3 : within b0 k0 = true) by (apply within_spec; lia). congruence.
    - apply within_spec in W2. assert (W3 : within b0 (- k0) = true) by (apply within_spec; lia). congruence. }
  intros Hp. revert k. induction p as [|p IH]; [lia|]. intros k HA. destruct (Nat.eq_dec p 0) as [->|Np].
  - rewrite !phase_factor_1. rewrite !cut_within. rewrite W. destruct (within b k); [|now rewrite Cconj_R].
    apply HA. lia.
  - rewrite !phase_factor_S by lia. rewrite csum_conj. rewrite <- csum_sym_opp. apply csum_ext. intros l _.
    rewrite Cconj_mult. rewrite HA by lia. rewrite Z.opp_involutive. f_equal.
    rewrite !cut_within. replace (k - Z.of_nat (S p) * - l)%Z with (- (- k - Z.of_nat (S p) * l))%Z by ring.
    rewrite W. destruct (within B _); [|now rewrite Cconj_R]. rewrite IH by (try lia; intros; apply HA; lia).
    now rewrite Z.opp_involutive.
Qed.
