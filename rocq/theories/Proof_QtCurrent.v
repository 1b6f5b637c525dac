(** The loop nests of Model_QtCurrent compute Spec_QtCurrent. *)
From Coq Require Import List ZArith Lia Bool Arith Reals Lra Permutation.
From Coquelicot Require Import Complex.
From Verif Require Import Base Sums Round Model_QtCurrent Spec_QtCurrent Spec_QtApi.
Import ListNotations.
Open Scope Z_scope.

(* ------------------------------------------------------------------ *)
(** ** Loop limits of the convolution *)

Lemma conv_limits b p k l : 1 <= p -> - b <= k <= b ->
  (Z.max (- b) (Z.quot (k - b) p) <= l <= Z.min b (Z.quot (k + b) p))
  <-> (- b <= l <= b /\ - b <= k - p * l <= b).
Proof.
  intros Hp Hk.
  replace (Z.quot (k - b) p) with (- ((b - k) / p)).
  2:{ rewrite <- Z.quot_div_nonneg by lia. rewrite <- Z.quot_opp_l by lia. f_equal. lia. }
  rewrite (Z.quot_div_nonneg (k + b) p) by lia.
  pose proof (Z.div_mod (b - k) p ltac:(lia)) as E1. pose proof (Z.mod_pos_bound (b - k) p ltac:(lia)) as M1.
  pose proof (Z.div_mod (k + b) p ltac:(lia)) as E2. pose proof (Z.mod_pos_bound (k + b) p ltac:(lia)) as M2.
  set (q1 := (b - k) / p) in *. set (q2 := (k + b) / p) in *.
  split.
  - intros [H1 H2]. repeat split; try lia; nia.
  - intros [H1 [H2 H3]].
    assert (- l <= q1) by (apply Z.div_le_lower_bound; lia).
    assert (l <= q2) by (apply Z.div_le_lower_bound; lia). lia.
Qed.

Lemma within_spec b k : within b k = true <-> - Z.of_nat b <= k <= Z.of_nat b.
Proof. unfold within. rewrite andb_true_iff, !Z.leb_le. reflexivity. Qed.

Lemma cut_within b f k : cut b f k = if within b k then f k else RtoC 0.
Proof.
  unfold cut, within. destruct (Z.leb_spec (Z.abs k) (Z.of_nat b)), (Z.leb_spec (- Z.of_nat b) k),
    (Z.leb_spec k (Z.of_nat b)); simpl; try reflexivity; lia.
Qed.

Lemma cut_in b f k : - Z.of_nat b <= k <= Z.of_nat b -> cut b f k = f k.
Proof. intros H. unfold cut. destruct (Z.leb_spec (Z.abs k) (Z.of_nat b)); [reflexivity|lia]. Qed.
Lemma cut_out b f k : ~ (- Z.of_nat b <= k <= Z.of_nat b) -> cut b f k = RtoC 0.
Proof. intros H. unfold cut. destruct (Z.leb_spec (Z.abs k) (Z.of_nat b)); [lia|reflexivity]. Qed.

(* ------------------------------------------------------------------ *)
(** ** Bessel rows *)

Lemma expi_cis t : expi t = cis t.
Proof. reflexivity. Qed.

Lemma Cconj_cis t : Cconj (cis t) = cis (- t).
Proof. unfold Cconj, cis; simpl. now rewrite cos_neg, sin_neg. Qed.


Section Rows.
Variable J : nat -> R -> R.

Lemma jacobi_anger_nonneg alpha phi n : 0 <= n ->
  jacobi_anger J alpha phi n = Cmult (RtoC (J (Z.to_nat n) alpha)) (expi (- (IZR n * phi))).
Proof.
  intros H. unfold jacobi_anger, besselZ. destruct (Z.ltb_spec n 0); [lia|]. reflexivity.
Qed.

Lemma jacobi_anger_neg alpha phi n : 0 < n ->
  jacobi_anger J alpha phi (- n) =
  Cmult (RtoC ((-1) ^ Z.to_nat n)%R) (Cconj (Cmult (RtoC (J (Z.to_nat n) alpha)) (expi (- (IZR n * phi))))).
Proof.
  intros H. unfold jacobi_anger, besselZ. destruct (Z.ltb_spec (- n) 0); [|lia].
  rewrite Z.opp_involutive. rewrite Cconj_mult, Cconj_R. change expi with cis. rewrite Cconj_cis.
  rewrite RtoC_mult. replace (- (IZR (- n) * phi))%R with (- - (IZR n * phi))%R by (rewrite opp_IZR; ring). ring.
Qed.

Lemma setk_sym N row k v : - Z.of_nat N <= k <= Z.of_nat N ->
  setk (2 * N + 1) row k v = Ok (fun j' => if (j' =? wrapk N k)%nat then v else row j').
Proof. intros H. unfold setk. now rewrite pyidx_sym. Qed.

Lemma getk_sym N row k : - Z.of_nat N <= k <= Z.of_nat N ->
  getk (2 * N + 1) row k = Ok (row (wrapk N k)).
Proof. intros H. unfold getk. now rewrite pyidx_sym. Qed.

Lemma wrapk_eqb N k l : - Z.of_nat N <= k <= Z.of_nat N -> - Z.of_nat N <= l <= Z.of_nat N ->
  (wrapk N k =? wrapk N l)%nat = (k =? l).
Proof.
  intros Hk Hl. destruct (Nat.eqb_spec (wrapk N k) (wrapk N l)) as [E|E].
  - apply wrapk_inj in E; [|lia|lia]. subst. symmetry. apply Z.eqb_refl.
  - symmetry. apply Z.eqb_neq. intros ->. contradiction.
Qed.

Lemma jac_row_spec N nbf alpha phi : (nbf <= N)%nat ->
  exists row, jac_row J (2 * N + 1) nbf alpha phi = Ok row /\
    forall k i, - Z.of_nat N <= k <= Z.of_nat N ->
      row (wrapk N k) i = cut nbf (jacobi_anger J (alpha i) (phi i)) k.
Proof.
  intros Hb. unfold jac_row. rewrite setk_sym by lia. cbn [bind].
  set (row0 := fun j' : nat => if (j' =? wrapk N 0)%nat then _ else vzero).
  pose (P := fun (pre : list Z) (row : nat -> vec) =>
    (forall n, In n pre -> 1 <= n <= Z.of_nat nbf) /\
    forall k i, - Z.of_nat N <= k <= Z.of_nat N ->
      row (wrapk N k) i = if (k =? 0) then jacobi_anger J (alpha i) (phi i) 0
                          else if existsb (Z.eqb (Z.abs k)) pre then jacobi_anger J (alpha i) (phi i) k
                          else RtoC 0).
  destruct (foreach_inv P
    (fun n row =>
      let jn := fun i => if n =? 1 then J 1%nat (alpha i) else J (Z.to_nat n) (alpha i) in
      let* row1 := setk (2 * N + 1) row n (fun i => Cmult (RtoC (jn i)) (expi (- (IZR n * phi i)))) in
      let* v := getk (2 * N + 1) row1 n in
      setk (2 * N + 1) row1 (- n) (fun i => Cmult (RtoC ((-1) ^ Z.to_nat n)%R) (Cconj (v i))))
    (zrange 1 (Z.of_nat nbf + 1)) [] row0) as [row [E [_ H]]].
  - split; [intros n []|]. intros k i Hk. unfold row0. rewrite wrapk_eqb by lia.
    destruct (Z.eqb_spec k 0); [|reflexivity]. rewrite jacobi_anger_nonneg by lia. simpl.
    unfold expi. rewrite Rmult_0_l, Ropp_0, cos_0, sin_0. change (1%R, 0%R) with (RtoC 1).
    now rewrite Cmult_1_r.
  - intros pre n row Hn [Hpre HP]. apply in_zrange in Hn.
    cbv zeta. rewrite setk_sym by lia. cbn [bind]. rewrite getk_sym by lia. cbn [bind].
    rewrite setk_sym by lia. eexists. split; [reflexivity|]. split.
    { intros m Hm. apply in_app_iff in Hm as [Hm|[<-|[]]]; [auto|lia]. }
    intros k i Hk. rewrite !wrapk_eqb by lia. rewrite existsb_app. cbn [existsb]. rewrite orb_false_r.
    rewrite Z.eqb_refl.
    assert (Jn : (if n =? 1 then J 1%nat (alpha i) else J (Z.to_nat n) (alpha i)) = J (Z.to_nat n) (alpha i)).
    { destruct (Z.eqb_spec n 1); [subst; reflexivity|reflexivity]. }
    destruct (Z.eqb_spec k (- n)) as [->|Nk].
    + destruct (Z.eqb_spec (- n) 0); [lia|]. replace (Z.abs (- n)) with n by lia.
      rewrite Z.eqb_refl, orb_true_r. rewrite jacobi_anger_neg by lia. now rewrite Jn.
    + destruct (Z.eqb_spec k n) as [->|Nk'].
      * destruct (Z.eqb_spec n 0); [lia|]. replace (Z.abs n) with n by lia.
        rewrite Z.eqb_refl, orb_true_r. rewrite jacobi_anger_nonneg by lia. now rewrite Jn.
      * rewrite HP by lia. destruct (Z.eqb_spec k 0); [reflexivity|].
        destruct (Z.eqb_spec (Z.abs k) n); [lia|]. now rewrite orb_false_r.
  - exists row. split; [exact E|]. intros k i Hk. rewrite H by assumption.
    destruct (Z.eqb_spec k 0) as [->|Nk].
    + now rewrite cut_in by lia.
    + simpl app. destruct (existsb (Z.eqb (Z.abs k)) (zrange 1 (Z.of_nat nbf + 1))) eqn:EX.
      * apply existsb_exists in EX as [m [Hm Em]]. apply in_zrange in Hm. apply Z.eqb_eq in Em.
        now rewrite cut_in by lia.
      * rewrite cut_out; [reflexivity|]. intros Hc.
        assert (T : existsb (Z.eqb (Z.abs k)) (zrange 1 (Z.of_nat nbf + 1)) = true); [|congruence].
        apply existsb_exists. exists (Z.abs k). split; [apply in_zrange; lia|apply Z.eqb_refl].
Qed.

(** The coefficient of harmonic [p] of tone [f] at bias point [i]. *)
Definition JA (vj : nat -> nat -> vec) (freq : nat -> R) (f p i : nat) (n : Z) : C :=
  jacobi_anger J (Cmod (vj f p i) / (INR p * freq f)) (angle (vj f p i)) n.

Lemma in_list_max l x : In x l -> (x <= list_max l)%nat.
Proof.
  intros H. pose proof (proj1 (list_max_le l (list_max l)) (le_n _)) as F.
  rewrite Forall_forall in F. auto.
Qed.

Lemma build_jac_spec vj freq num_f num_p num_b :
  (num_f <= length num_b)%nat ->
  exists jac, build_jac J vj freq num_f num_p num_b = Ok jac /\
    j_nf jac = (num_f + 1)%nat /\ j_np jac = (num_p + 1)%nat /\ j_nk jac = (2 * list_max num_b + 1)%nat /\
    forall f p k i, (1 <= f <= num_f)%nat -> (1 <= p <= num_p)%nat ->
      - Z.of_nat (list_max num_b) <= k <= Z.of_nat (list_max num_b) ->
      j_at jac f p (wrapk (list_max num_b) k) i = cut (nth (f - 1) num_b O) (JA vj freq f p i) k.
Proof.
  intros Hlen. unfold build_jac. cbv beta zeta. set (N := list_max num_b).
  replace (N * 2 + 1)%nat with (2 * N + 1)%nat by lia.
  set (alpha := fun f p i => (Cmod (vj f p i) / (INR p * freq f))%R).
  set (phi := fun f p i => angle (vj f p i)).
  pose (good := fun (at_ : nat -> nat -> nat -> vec) f p => forall k i, - Z.of_nat N <= k <= Z.of_nat N ->
      at_ f p (wrapk N k) i = cut (nth (f - 1) num_b O) (JA vj freq f p i) k).
  pose (P := fun (pre : list nat) (at_ : nat -> nat -> nat -> vec) =>
     forall f p, In f pre -> (1 <= p <= num_p)%nat -> good at_ f p).
  match goal with |- context [foreach (seq 1 num_f) ?b ?a0] =>
    destruct (foreach_inv P b (seq 1 num_f) [] a0) as [at_ [E H]] end.
  - intros f p [].
  - intros pre f at0 Hf HP. apply in_seq in Hf.
    destruct (nth_error num_b (f - 1)) as [nbf|] eqn:En.
    2:{ apply nth_error_None in En. lia. }
    assert (Hnb : (nbf <= N)%nat) by (apply in_list_max; eapply nth_error_In; eauto).
    pose (P' := fun (pre' : list nat) (at1 : nat -> nat -> nat -> vec) =>
       (forall f' p, In f' pre -> (1 <= p <= num_p)%nat -> good at1 f' p) /\
       (forall p, In p pre' -> good at1 f p)).
    match goal with |- context [foreach (seq 1 num_p) ?b at0] =>
      destruct (foreach_inv P' b (seq 1 num_p) [] at0) as [at1 [E1 [H1 H1']]] end.
    + split; [exact HP|intros p []].
    + intros pre' p at1 Hp [HPa HPb].
      destruct (jac_row_spec N nbf (alpha f p) (phi f p) Hnb) as [row [Er Hr]].
      unfold alpha, phi in Er; cbv beta in Er. rewrite Er. cbn [bind]. eexists. split; [reflexivity|].
      assert (G : good (fun f' p' : nat => if ((f' =? f) && (p' =? p))%nat then row else at1 f' p') f p).
      { intros k i Hk. rewrite !Nat.eqb_refl. simpl. rewrite Hr by assumption.
        rewrite (nth_error_nth num_b (f - 1) O En). reflexivity. }
      split.
      * intros f' p' Hf' Hp' k i Hk.
        destruct (Nat.eqb_spec f' f) as [->|]; simpl; [|apply HPa; assumption].
        destruct (Nat.eqb_spec p' p) as [->|]; simpl; [|apply HPa; assumption].
        pose proof (G k i Hk) as G1; cbv beta in G1; rewrite !Nat.eqb_refl in G1; exact G1.
      * intros p' Hp'. apply in_app_iff in Hp' as [Hp'|[<-|[]]]; [|exact G].
        intros k i Hk. rewrite Nat.eqb_refl. simpl.
        destruct (Nat.eqb_spec p' p) as [->|]; [|apply HPb; assumption].
        pose proof (G k i Hk) as G1; cbv beta in G1; rewrite !Nat.eqb_refl in G1; exact G1.
    + exists at1. split; [exact E1|]. intros f' p Hf' Hp.
      apply in_app_iff in Hf' as [Hf'|[<-|[]]]; [apply H1; assumption|].
      apply H1'. simpl. apply in_seq. lia.
  - rewrite E. cbn [bind]. eexists. split; [reflexivity|]. simpl.
    split; [reflexivity|]. split; [reflexivity|]. split; [fold N; lia|].
    intros f p k i Hf Hp Hk. apply (H f p); [apply in_seq; lia|assumption|assumption].
Qed.

(** ** One convolution pass *)

Lemma nbidx_sym N k : - Z.of_nat N <= k <= Z.of_nat N -> nbidx (2 * N + 1) k = Ok (wrapk N k).
Proof. intros H. unfold nbidx. now rewrite pyidx_sym. Qed.

Lemma nbidx_nat n p : (p < n)%nat -> nbidx n (Z.of_nat p) = Ok p.
Proof. intros H. unfold nbidx. rewrite pyidx_nonneg by lia. now rewrite Nat2Z.id. Qed.

Lemma conv_inner jac N p k last ls :
  j_nk jac = (2 * N + 1)%nat -> (p < j_np jac)%nat ->
  - Z.of_nat N <= k <= Z.of_nat N ->
  (forall l, In l ls -> - Z.of_nat N <= l <= Z.of_nat N /\ - Z.of_nat N <= k - Z.of_nat p * l <= Z.of_nat N) ->
  forall next : nat -> nat -> vec, exists next',
  foreach ls (fun l ckh_next =>
      let* jk := nbidx (j_nk jac) k in
      let* jkl := nbidx (j_nk jac) (k - Z.of_nat p * l) in
      let* jp := nbidx (j_np jac) (Z.of_nat p) in
      let* jl := nbidx (j_nk jac) l in
      Ok (fun f j => if ((1 <=? f) && (j =? jk))%nat
                     then fun i => Cplus (ckh_next f jk i) (Cmult (last f jkl i) (j_at jac f jp jl i))
                     else ckh_next f j)) next = Ok next' /\
  (forall f j i, (f = 0%nat \/ j <> wrapk N k) -> next' f j i = next f j i) /\
  (forall f i, (1 <= f)%nat -> next' f (wrapk N k) i =
     Cplus (next f (wrapk N k) i)
       (csum ls (fun l => Cmult (last f (wrapk N (k - Z.of_nat p * l)) i) (j_at jac f p (wrapk N l) i)))).
Proof.
  intros Hnk Hp Hk.
  match goal with |- context [foreach ls ?b _] => set (body := b) end.
  induction ls as [|l ls IH]; intros Hls next.
  - exists next. simpl. split; [reflexivity|]. split; [reflexivity|]. intros. ring.
  - cbn [foreach]. destruct (Hls l (or_introl eq_refl)) as [Hl1 Hl2].
    assert (Eb : body l next = Ok (fun f j => if ((1 <=? f) && (j =? wrapk N k))%nat
                  then fun i => Cplus (next f (wrapk N k) i)
                                 (Cmult (last f (wrapk N (k - Z.of_nat p * l)) i) (j_at jac f p (wrapk N l) i))
                  else next f j)).
    { unfold body. rewrite Hnk, !nbidx_sym by assumption. rewrite nbidx_nat by assumption. reflexivity. }
    rewrite Eb. cbn [bind].
    destruct (IH (fun l' H => Hls l' (or_intror H))
      (fun f j => if ((1 <=? f) && (j =? wrapk N k))%nat
                  then fun i => Cplus (next f (wrapk N k) i)
                                 (Cmult (last f (wrapk N (k - Z.of_nat p * l)) i) (j_at jac f p (wrapk N l) i))
                  else next f j)) as [next' [E [H1 H2]]].
    exists next'. split; [exact E|]. split.
    + intros f j i Hfj. rewrite H1 by assumption.
      destruct (Nat.leb_spec 1 f), (Nat.eqb_spec j (wrapk N k)); simpl; try reflexivity. lia.
    + intros f i Hf. rewrite H2 by assumption. rewrite Nat.eqb_refl.
      destruct (Nat.leb_spec 1 f); [|lia]. simpl. ring.
Qed.

Lemma conv_pass_spec jac N p last :
  j_nk jac = (2 * N + 1)%nat -> (p < j_np jac)%nat -> (1 <= p)%nat ->
  exists next, conv_pass jac N (Z.of_nat p) last = Ok next /\
    forall f k i, (1 <= f)%nat -> - Z.of_nat N <= k <= Z.of_nat N ->
      next f (wrapk N k) i =
      csum (sym N) (fun l => if within N (k - Z.of_nat p * l)
                             then Cmult (last f (wrapk N (k - Z.of_nat p * l)) i) (j_at jac f p (wrapk N l) i)
                             else RtoC 0).
Proof.
  intros Hnk Hp Hp1. unfold conv_pass.
  pose (S := fun f k i => csum (sym N) (fun l => if within N (k - Z.of_nat p * l)
                             then Cmult (last f (wrapk N (k - Z.of_nat p * l)) i) (j_at jac f p (wrapk N l) i)
                             else RtoC 0)).
  pose (P := fun (pre : list Z) (next : nat -> nat -> vec) =>
    (forall k, In k pre -> - Z.of_nat N <= k <= Z.of_nat N) /\
    forall f k i, (1 <= f)%nat -> - Z.of_nat N <= k <= Z.of_nat N ->
      next f (wrapk N k) i = if existsb (Z.eqb k) pre then S f k i else RtoC 0).
  assert (Gen : forall ks pre next, P pre next -> NoDup ks -> (forall k, In k ks -> - Z.of_nat N <= k <= Z.of_nat N) ->
    (forall k, In k ks -> ~ In k pre) ->
    exists next', foreach ks (fun k ckh_next =>
       foreach (zrange (Z.max (- Z.of_nat N) (Z.quot (k - Z.of_nat N) (Z.of_nat p)))
                       (Z.min (Z.of_nat N) (Z.quot (k + Z.of_nat N) (Z.of_nat p)) + 1)) (fun l ckh_next =>
      let* jk := nbidx (j_nk jac) k in
      let* jkl := nbidx (j_nk jac) (k - Z.of_nat p * l) in
      let* jp := nbidx (j_np jac) (Z.of_nat p) in
      let* jl := nbidx (j_nk jac) l in
      Ok (fun f j => if ((1 <=? f) && (j =? jk))%nat
                     then fun i => Cplus (ckh_next f jk i) (Cmult (last f jkl i) (j_at jac f jp jl i))
                     else ckh_next f j)) ckh_next) next = Ok next' /\ P (pre ++ ks) next').
  { induction ks as [|k ks IH]; intros pre next HP ND Hks Hni.
    - exists next. rewrite app_nil_r. split; [reflexivity|exact HP].
    - cbn [foreach]. inversion ND as [|? ? Hnin ND']; subst.
      assert (Hk : - Z.of_nat N <= k <= Z.of_nat N) by (apply Hks; now left).
      destruct (conv_inner jac N p k last
        (zrange (Z.max (- Z.of_nat N) (Z.quot (k - Z.of_nat N) (Z.of_nat p)))
                       (Z.min (Z.of_nat N) (Z.quot (k + Z.of_nat N) (Z.of_nat p)) + 1)) Hnk Hp Hk) with (next := next)
        as [n1 [E1 [H1 H2]]].
      { intros l Hl. apply in_zrange in Hl. apply (conv_limits (Z.of_nat N) (Z.of_nat p) k l); lia. }
      rewrite E1. cbn [bind].
      destruct (IH (pre ++ [k]) n1) as [n2 [E2 HP2]].
      + split.
        { intros k' Hk'. apply in_app_iff in Hk' as [Hk'|[<-|[]]]; [apply (proj1 HP); assumption|lia]. }
        intros f k' i Hf Hk'. rewrite existsb_app. cbn [existsb]. rewrite orb_false_r.
        destruct (Z.eqb_spec k' k) as [->|Nk].
        * rewrite orb_true_r. rewrite H2 by assumption. rewrite (proj2 HP) by assumption.
          destruct (existsb (Z.eqb k) pre) eqn:EX.
          { apply existsb_exists in EX as [x [Hx Ex]]. apply Z.eqb_eq in Ex. subst x.
            exfalso. apply (Hni k); [now left|assumption]. }
          unfold S. rewrite Cplus_0_l. rewrite <- csum_filter. apply csum_perm. apply NoDup_Permutation.
          -- apply zrange_NoDup.
          -- apply NoDup_filter, sym_NoDup.
          -- intros l. rewrite in_zrange, filter_In, in_sym, within_spec.
             rewrite <- (conv_limits (Z.of_nat N) (Z.of_nat p) k l) by lia. lia.
        * rewrite orb_false_r. rewrite H1; [apply (proj2 HP); assumption|].
          right. intros E. apply Nk. apply (wrapk_inj N); assumption.
      + assumption.
      + intros; apply Hks; now right.
      + intros k' Hk' Hin. apply in_app_iff in Hin as [Hin|[<-|[]]]; [|contradiction].
        apply (Hni k'); [now right|assumption].
      + exists n2. split; [exact E2|]. rewrite <- app_assoc in HP2. exact HP2. }
  destruct (Gen (zrange (- Z.of_nat N) (Z.of_nat N + 1)) [] (fun _ _ => vzero)) as [next [E [_ H]]].
  - split; [intros k []|]. intros; reflexivity.
  - apply zrange_NoDup.
  - intros k Hk. apply in_zrange in Hk. lia.
  - intros k _ [].
  - exists next. split; [exact E|]. intros f k i Hf Hk. rewrite H by assumption.
    replace (existsb _ _) with true; [reflexivity|]. symmetry. apply existsb_exists.
    exists k. split; [simpl; apply in_zrange; lia|apply Z.eqb_refl].
Qed.

(** The array of coefficients returned by calculate_phase_factor_coeff. *)
Lemma csum_cut_sym N b g : (b <= N)%nat ->
  csum (sym N) (fun l => cut b g l) = csum (sym b) g.
Proof.
  intros H. rewrite (csum_ext (sym b) g (fun l => cut b g l)).
  2:{ intros l Hl. apply in_sym in Hl. now rewrite cut_in. }
  apply csum_support; try apply sym_NoDup. intros l Hl. rewrite !in_sym.
  destruct (Z_le_gt_dec (Z.abs l) (Z.of_nat b)); [lia|].
  exfalso. apply Hl. apply cut_out. lia.
Qed.

Lemma phase_factor_S B b A p : (1 <= p)%nat ->
  phase_factor B b A (S p) =
  fun k => csum (sym b) (fun l => Cmult (cut B (phase_factor B b A p) (k - Z.of_nat (S p) * l)) (A (S p) l)).
Proof. intros H. destruct p; [lia|]. reflexivity. Qed.

Lemma phase_factor_1 B b A : phase_factor B b A 1 = cut b (A 1%nat).
Proof. reflexivity. Qed.

Lemma calculate_phase_factor_coeff_spec vj freq num_f num_p num_b :
  (1 <= num_f)%nat -> (1 <= num_p)%nat -> (num_f <= length (nbtuple num_b num_f))%nat ->
  let nbt := nbtuple num_b num_f in
  let N := list_max nbt in
  exists ccc, calculate_phase_factor_coeff J vj freq num_f num_p num_b = Ok ccc /\
    c_nf ccc = (num_f + 1)%nat /\ c_nk ccc = (2 * N + 1)%nat /\
    forall f k i, (1 <= f <= num_f)%nat -> - Z.of_nat N <= k <= Z.of_nat N ->
      c_at ccc f (wrapk N k) i =
      phase_factor N (nth (f - 1) nbt O) (fun p => JA vj freq f p i) num_p k.
Proof.
  intros Hf1 Hp1 Hlen nbt N. unfold calculate_phase_factor_coeff. fold (nbtuple num_b num_f). fold nbt.
  fold nbt in Hlen. destruct (Nat.eqb_spec (length nbt) 0) as [E0|_]; [lia|]. cbn [bind].
  destruct (build_jac_spec vj freq num_f num_p nbt Hlen) as [jac [EJ [Hnf [Hnp [Hnk HJ]]]]].
  fold N in Hnk, HJ. rewrite EJ. cbn [bind]. unfold convolve_coefficients.
  rewrite Hnp. replace (num_p + 1 - 1)%nat with num_p by lia.
  assert (EN : ((j_nk jac - 1) / 2)%nat = N).
  { rewrite Hnk. replace (2 * N + 1 - 1)%nat with (N * 2)%nat by lia. now rewrite Nat.div_mul. }
  rewrite EN. rewrite (nbidx_nat (num_p + 1) 1 ltac:(lia) : nbidx (num_p + 1) 1 = Ok 1%nat). cbn [bind].
  assert (Hnb : forall f, (1 <= f <= num_f)%nat -> (nth (f - 1) nbt O <= N)%nat).
  { intros f Hf. apply in_list_max. apply nth_In. lia. }
  destruct (Nat.eqb_spec num_p 1) as [->|Np].
  - eexists. split; [reflexivity|]. simpl c_nf. simpl c_nk. split; [assumption|]. split; [assumption|].
    intros f k i Hf Hk. simpl c_at. rewrite HJ by lia. rewrite phase_factor_1. reflexivity.
  - (* induction on the number of passes *)
    assert (Gen : forall m, (1 <= m <= num_p)%nat -> exists ckh,
      foreach (zrange 2 (Z.of_nat m + 1)) (fun p last => conv_pass jac N p last) (fun f => j_at jac f 1%nat) = Ok ckh /\
      forall f k i, (1 <= f <= num_f)%nat -> - Z.of_nat N <= k <= Z.of_nat N ->
        ckh f (wrapk N k) i = phase_factor N (nth (f - 1) nbt O) (fun p => JA vj freq f p i) m k).
    { induction m as [|m IHm]; [lia|]. intros Hm. destruct (Nat.eq_dec m 0) as [->|Nm].
      - simpl Z.of_nat. rewrite zrange_nil by lia. simpl. eexists. split; [reflexivity|].
        intros f k i Hf Hk. cbv beta. rewrite HJ by lia. reflexivity.
      - destruct IHm as [ckh [E H]]; [lia|].
        replace (Z.of_nat (S m) + 1) with (Z.of_nat m + 1 + 1) by lia.
        rewrite zrange_snoc by lia. rewrite foreach_app, E. cbn [bind foreach].
        destruct (conv_pass_spec jac N (S m) ckh Hnk ltac:(lia) ltac:(lia)) as [next [En Hn]].
        replace (Z.of_nat m + 1) with (Z.of_nat (S m)) by lia. rewrite En. cbn [bind].
        exists next. split; [reflexivity|]. intros f k i Hf Hk. rewrite Hn by lia.
        rewrite phase_factor_S by lia.
        rewrite <- (csum_cut_sym N (nth (f - 1) nbt O)) by (apply Hnb; assumption).
        apply csum_ext. intros l Hl. apply in_sym in Hl. rewrite cut_within.
        rewrite (cut_within N). destruct (within N (k - Z.of_nat (S m) * l)) eqn:W.
        + apply within_spec in W. rewrite H by assumption. rewrite HJ by lia. rewrite cut_within.
          destruct (within (nth (f - 1) nbt O) l); [reflexivity|]. now rewrite Cmult_0_r.
        + destruct (within _ l); [now rewrite Cmult_0_l|reflexivity]. }
    destruct (Gen num_p ltac:(lia)) as [ckh [E H]].
    rewrite E. cbn [bind]. eexists. split; [reflexivity|]. simpl c_nf. simpl c_nk.
    split; [assumption|]. split; [assumption|]. exact H.
Qed.
End Rows.
