(** One Newton correction solves the linearised balance equations; affine junctions. *)
From Coq Require Import List ZArith Lia Bool Arith Reals Lra.
From Coquelicot Require Import Complex.
From Verif Require Import Base Sums Round Model_QtCurrent Spec_QtCurrent Model_Circuit Proof_Circuit Model_HB Spec_HB Proof_HB.
Import ListNotations.

Lemma mapM_nth {A B} (f : A -> res B) : forall l ys, mapM f l = Ok ys ->
  length ys = length l /\ forall j x, nth_error l j = Some x -> exists y, nth_error ys j = Some y /\ f x = Ok y.
Proof.
  induction l as [|a l IH]; intros ys H; simpl in H.
  - injection H as <-. split; [reflexivity|]. intros [|j] x Hx; discriminate.
  - apply bind_ok in H. destruct H as [y [E H]]. apply bind_ok in H. destruct H as [ys' [E' H]]. injection H as <-.
    destruct (IH ys' E') as [L N]. split; [simpl; now rewrite L|]. intros [|j] x Hx; simpl in Hx.
    + injection Hx as <-. exists y. auto.
    + simpl. auto.
Qed.
Lemma nth_error_seq n j : (j < n)%nat -> nth_error (seq 0 n) j = Some j.
Proof.
  intros H. rewrite (nth_error_nth' _ 0%nat) by (rewrite seq_length; lia). now rewrite seq_nth by lia.
Qed.

(** ** Sums *)
Lemma rsum_to_ext n f g : (forall k, (k < n)%nat -> f k = g k) -> rsum_to n f = rsum_to n g.
Proof. induction n as [|n IH]; intros H; simpl; [reflexivity|]. rewrite IH by (intros; apply H; lia). now rewrite H by lia. Qed.
Lemma rsum_to_plus n f g : rsum_to n (fun k => f k + g k)%R = (rsum_to n f + rsum_to n g)%R.
Proof. induction n; simpl; [ring|rewrite IHn; ring]. Qed.
Lemma rsum_to_scal n f c : rsum_to n (fun k => c * f k)%R = (c * rsum_to n f)%R.
Proof. induction n; simpl; [ring|rewrite IHn; ring]. Qed.
Lemma rsum_to_0 n : rsum_to n (fun _ => 0%R) = 0%R.
Proof. induction n; simpl; [reflexivity|rewrite IHn; ring]. Qed.
Lemma rsum_to_exchange n m f : rsum_to n (fun a => rsum_to m (fun b => f a b)) = rsum_to m (fun b => rsum_to n (fun a => f a b)).
Proof.
  induction n as [|n IH]; simpl; [now rewrite rsum_to_0|]. rewrite IH, <- rsum_to_plus. reflexivity.
Qed.
Lemma rsum_to_delta n f a : (a < n)%nat -> rsum_to n (fun c => (if (a =? c)%nat then 1 else 0) * f c)%R = f a.
Proof.
  intros Ha. induction n as [|n IH]; [lia|]. simpl. destruct (Nat.eqb_spec a n) as [->|E].
  - rewrite (rsum_to_ext n _ (fun _ => 0%R)); [rewrite rsum_to_0; ring|]. intros k Hk. destruct (Nat.eqb_spec n k); [lia|ring].
  - rewrite IH by lia. ring.
Qed.
Lemma rsum_to_double n f : rsum_to (2 * n) f = rsum_to n (fun q => f (q * 2)%nat + f (q * 2 + 1)%nat)%R.
Proof.
  induction n as [|n IH]; [reflexivity|]. replace (2 * S n)%nat with (S (S (2 * n))) by lia. cbn [rsum_to]. rewrite IH.
  replace (n * 2)%nat with (2 * n)%nat by lia. replace (2 * n + 1)%nat with (S (2 * n)) by lia. ring.
Qed.
Lemma csum_seq_S n f : csum (seq 0 (S n)) f = Cplus (csum (seq 0 n) f) (f n).
Proof. rewrite seq_S, csum_app. simpl. ring. Qed.
Lemma Re_csum_to n f : Re (csum (seq 0 n) f) = rsum_to n (fun k => Re (f k)).
Proof. induction n as [|n IH]; [reflexivity|]. rewrite csum_seq_S. simpl rsum_to. rewrite <- IH. reflexivity. Qed.
Lemma Im_csum_to n f : Im (csum (seq 0 n) f) = rsum_to n (fun k => Im (f k)).
Proof. induction n as [|n IH]; [reflexivity|]. rewrite csum_seq_S. simpl rsum_to. rewrite <- IH. reflexivity. Qed.

(** A right inverse solves the system. *)
Lemma solve_right n M N E : right_inverse n M N -> forall a, (a < n)%nat ->
  rsum_to n (fun b => M a b * rsum_to n (fun c => N b c * E c))%R = E a.
Proof.
  intros H a Ha.
  transitivity (rsum_to n (fun b => rsum_to n (fun c => M a b * N b c * E c)))%R.
  { apply rsum_to_ext. intros b _. rewrite <- rsum_to_scal. apply rsum_to_ext. intros; ring. }
  rewrite rsum_to_exchange.
  transitivity (rsum_to n (fun c => (if (a =? c)%nat then 1 else 0) * E c))%R; [|now apply rsum_to_delta].
  apply rsum_to_ext. intros c Hc. rewrite <- (H a c Ha Hc), Rmult_comm, <- rsum_to_scal. apply rsum_to_ext. intros; ring.
Qed.

Lemma C_ext (a b : C) : Re a = Re b -> Im a = Im b -> a = b.
Proof. destruct a, b; simpl; intros; subst; reflexivity. Qed.

Section Step.
Variables num_n npts : nat.
Variable qt : arr2 -> res arr2.
Variable inv : nat -> (nat -> nat -> R) -> option (nat -> nat -> R).
Variables vt zt : nat -> C.
Variables damp : R.
Hypothesis inv_right : forall n M N, inv n M = Some N -> right_inverse n M N.

Lemma corr_parts inv_j err p i :
  Re (corr num_n inv_j err p i) = (- rsum_to num_n (fun q => inv_j i (p * 2)%nat (q * 2)%nat * Re (err q i) + inv_j i (p * 2)%nat (q * 2 + 1)%nat * Im (err q i)))%R /\
  Im (corr num_n inv_j err p i) = (- rsum_to num_n (fun q => inv_j i (p * 2 + 1)%nat (q * 2)%nat * Re (err q i) + inv_j i (p * 2 + 1)%nat (q * 2 + 1)%nat * Im (err q i)))%R.
Proof.
  unfold corr. induction num_n as [|n [IH1 IH2]]; [split; simpl; ring|].
  rewrite seq_S, fold_left_app. cbn [fold_left plus rsum_to]. split.
  - unfold Cminus, Cplus, Copp, Cmult, Ci, RtoC, Re in *. cbn [fst snd] in *. rewrite IH1. ring.
  - unfold Cminus, Cplus, Copp, Cmult, Ci, RtoC, Im in *. cbn [fst snd] in *. rewrite IH2. ring.
Qed.

(** The equations that a correction [x] of voltages [v] satisfies. *)
Definition newton_eq (v x : arr2) : Prop :=
  exists ij ire iim, qt v = Ok ij /\
  (forall q, (q < num_n)%nat -> qt (bump (RtoC 1) q v) = Ok (ire q) /\ qt (bump Ci q v) = Ok (iim q)) /\
  forall p i, (p < num_n)%nat -> (i < npts)%nat ->
    csum (seq 0 num_n) (fun q =>
      Cplus (Cmult (RtoC (Re (x q i))) (Cdiv (Cminus (residual vt zt (ire q) (bump (RtoC 1) q v) p i) (residual vt zt ij v p i)) (RtoC DV)))
            (Cmult (RtoC (Im (x q i))) (Cdiv (Cminus (residual vt zt (iim q) (bump Ci q v) p i) (residual vt zt ij v p i)) (RtoC DV))))
    = Copp (residual vt zt ij v p i).

Lemma mstep_newton v v' : mstep num_n npts qt inv vt zt damp v v' ->
  exists x, newton_eq v x /\ forall k i, v' k i = Cplus (v k i) (Cmult (x k i) (RtoC damp)).
Proof.
  intros [ij [js [Eq [Ej ->]]]]. set (err := residual vt zt ij v) in *.
  unfold inv_jacobian in Ej. apply bind_ok in Ej. destruct Ej as [jac [Ejac Ej]].
  unfold jacobian in Ejac. apply bind_ok in Ejac. destruct Ejac as [cols [Ec Ejac]].
  apply (f_equal (fun r => match r with Ok x => x | Err _ => jac end)) in Ejac. cbv beta iota in Ejac. subst jac.
  apply mapM_nth in Ec. destruct Ec as [_ Ec]. apply mapM_nth in Ej. destruct Ej as [_ Ej].
  set (sel := fun (pick : arr2 * arr2 -> arr2) (q : nat) => match nth_error cols q with Some c => pick c | None => fun _ _ => RtoC 0 end).
  set (cur := fun u q => match qt (bump u q v) with Ok a => a | Err _ => fun _ _ => RtoC 0 end).
  assert (Hcol : forall q, (q < num_n)%nat -> qt (bump (RtoC 1) q v) = Ok (cur (RtoC 1) q) /\ qt (bump Ci q v) = Ok (cur Ci q) /\
     nth_error cols q = Some (residual vt zt (cur (RtoC 1) q) (bump (RtoC 1) q v), residual vt zt (cur Ci q) (bump Ci q v))).
  { intros q Hq. destruct (Ec q q (nth_error_seq _ _ Hq)) as [y [Hy E]]. unfold cur.
    apply bind_ok in E. destruct E as [a [E1 E]]. apply bind_ok in E. destruct E as [b [E2 E]]. injection E as <-.
    rewrite E1, E2. auto. }
  set (inv_j := fun j => nth j js (fun _ _ => 0%R)).
  exists (corr num_n inv_j err). split; [|reflexivity].
  exists ij, (cur (RtoC 1)), (cur Ci). split; [assumption|]. split; [intros q Hq; split; now apply Hcol|].
  intros p i Hp Hi. fold err.
  destruct (Ej i i (nth_error_seq _ _ Hi)) as [N [HN E]].
  match type of E with context [inv _ ?m] => set (M := m) in * end.
  destruct (inv (2 * num_n) M) as [N'|] eqn:Einv; [|discriminate]. injection E as <-. apply inv_right in Einv.
  assert (EN : inv_j i = N') by (unfold inv_j; now apply nth_error_nth).
  set (E := fun c => if (c mod 2 =? 0)%nat then Re (err (c / 2)%nat i) else Im (err (c / 2)%nat i)).
  assert (Hd : forall q, (q * 2 / 2 = q /\ (q * 2 + 1) / 2 = q /\ (q * 2) mod 2 = 0 /\ (q * 2 + 1) mod 2 = 1)%nat).
  { intros q. repeat split; [apply Nat.div_mul; lia| |apply Nat.mod_mul; lia|].
    - rewrite Nat.add_comm, Nat.div_add by lia. reflexivity.
    - rewrite Nat.add_comm, Nat.mod_add by lia. reflexivity. }
  assert (HE : forall q, E (q * 2)%nat = Re (err q i) /\ E (q * 2 + 1)%nat = Im (err q i)).
  { intros q. unfold E. destruct (Hd q) as [-> [-> [-> ->]]]. auto. }
  assert (HX : forall q, Re (corr num_n inv_j err q i) = (- rsum_to (2 * num_n) (fun c => N' (q * 2)%nat c * E c))%R /\
                         Im (corr num_n inv_j err q i) = (- rsum_to (2 * num_n) (fun c => N' (q * 2 + 1)%nat c * E c))%R).
  { intros q. destruct (corr_parts inv_j err q i) as [-> ->]. rewrite !rsum_to_double, EN. split; f_equal; apply rsum_to_ext; intros c _;
      destruct (HE c) as [-> ->]; reflexivity. }
  assert (HM : forall a q s, (q < num_n)%nat -> (s < 2)%nat -> M a (q * 2 + s)%nat =
     jac_entry err (residual vt zt (cur (RtoC 1) q) (bump (RtoC 1) q v)) (residual vt zt (cur Ci q) (bump Ci q v)) (a / 2) i (a mod 2) s).
  { intros a q s Hq Hs. unfold M. cbv beta. destruct (Hcol q Hq) as [_ [_ Hc]].
    assert (D : ((q * 2 + s) / 2 = q /\ (q * 2 + s) mod 2 = s)%nat).
    { split; [rewrite Nat.add_comm, Nat.div_add by lia; rewrite Nat.div_small by lia; reflexivity|].
      rewrite Nat.add_comm, Nat.mod_add by lia. now apply Nat.mod_small. }
    destruct D as [-> ->]. now rewrite Hc. }
  assert (S : forall a, (a < 2 * num_n)%nat ->
     rsum_to num_n (fun q => Re (corr num_n inv_j err q i) * M a (q * 2 + 0)%nat + Im (corr num_n inv_j err q i) * M a (q * 2 + 1)%nat)%R = (- E a)%R).
  { intros a Ha. rewrite <- (solve_right _ M N' E Einv a Ha), rsum_to_double.
    replace (- rsum_to num_n (fun q => M a (q * 2)%nat * rsum_to (2 * num_n) (fun c => N' (q * 2)%nat c * E c) +
      M a (q * 2 + 1)%nat * rsum_to (2 * num_n) (fun c => N' (q * 2 + 1)%nat c * E c)))%R
      with ((-1) * rsum_to num_n (fun q => M a (q * 2)%nat * rsum_to (2 * num_n) (fun c => N' (q * 2)%nat c * E c) +
      M a (q * 2 + 1)%nat * rsum_to (2 * num_n) (fun c => N' (q * 2 + 1)%nat c * E c)))%R by ring.
    rewrite <- rsum_to_scal. apply rsum_to_ext. intros q _. destruct (HX q) as [-> ->]. rewrite Nat.add_0_r. ring. }
  destruct (Hd p) as [D1 [D2 [D3 D4]]]. destruct (HE p) as [E1 E2].
  apply C_ext.
  - rewrite Re_csum_to. transitivity (- E (p * 2)%nat)%R; [|rewrite E1; reflexivity]. rewrite <- (S (p * 2)%nat) by lia.
    apply rsum_to_ext. intros q Hq. rewrite !HM by lia. rewrite D1, D3. unfold jac_entry. cbn [Nat.eqb]. unfold Cplus, Cmult, RtoC, Re, Im. cbn [fst snd]. ring.
  - rewrite Im_csum_to. transitivity (- E (p * 2 + 1)%nat)%R; [|rewrite E2; reflexivity]. rewrite <- (S (p * 2 + 1)%nat) by lia.
    apply rsum_to_ext. intros q Hq. rewrite !HM by lia. rewrite D2, D4. unfold jac_entry. cbn [Nat.eqb]. unfold Cplus, Cmult, RtoC, Re, Im. cbn [fst snd]. ring.
Qed.
End Step.

(** ** Affine junctions *)

(** The current is a constant plus a real-linear function of the voltages at the same
    bias point. *)
Definition affine_junction (num_n npts : nat) (qt : arr2 -> res arr2) : Prop :=
  exists (c : arr2) (A B : nat -> nat -> nat -> C), forall v, exists ij, qt v = Ok ij /\
  forall k i, (k < num_n)%nat -> (i < npts)%nat ->
    ij k i = Cplus (c k i) (csum (seq 0 num_n) (fun q => Cplus (Cmult (A k q i) (RtoC (Re (v q i)))) (Cmult (B k q i) (RtoC (Im (v q i)))))).

Lemma DV_neq0 : RtoC DV <> RtoC 0.
Proof. unfold DV. intros H. apply (f_equal fst) in H. cbn in H. lra. Qed.

Lemma csum_single n q (f : nat -> C) : (q < n)%nat -> (forall k, (k < n)%nat -> k <> q -> f k = RtoC 0) -> csum (seq 0 n) f = f q.
Proof.
  induction n as [|n IH]; intros Hq H; [lia|]. rewrite csum_seq_S. destruct (Nat.eq_dec q n) as [->|E].
  - rewrite csum_0; [ring|]. intros k Hk. apply in_seq in Hk. apply H; lia.
  - rewrite IH by (try lia; intros; apply H; lia). rewrite (H n) by lia. ring.
Qed.

Section Affine.
Variables num_n npts : nat.
Variable qt : arr2 -> res arr2.
Variable inv : nat -> (nat -> nat -> R) -> option (nat -> nat -> R).
Variables vt zt : nat -> C.
Variable damp : R.
Hypothesis inv_right : forall n M N, inv n M = Some N -> right_inverse n M N.

Open Scope C_scope.
Lemma affine_step v v' ij ij' : affine_junction num_n npts qt ->
  mstep num_n npts qt inv vt zt damp v v' -> qt v = Ok ij -> qt v' = Ok ij' ->
  forall k i, (k < num_n)%nat -> (i < npts)%nat ->
  residual vt zt ij' v' k i = RtoC (1 - damp) * residual vt zt ij v k i.
Proof.
  intros [c [A [B Haff]]] St Eij Eij' k i Hk Hi.
  apply mstep_newton in St; [|assumption]. destruct St as [x [[ij0 [ire [iim [E0 [Eb Heq]]]]] Hv']].
  rewrite E0 in Eij. injection Eij as ->.
  specialize (Heq k i Hk Hi).
  set (L := fun w : arr2 => csum (seq 0 num_n) (fun q => A k q i * RtoC (Re (w q i)) + B k q i * RtoC (Im (w q i)))).
  assert (Hcur : forall w jw, qt w = Ok jw -> jw k i = c k i + L w).
  { intros w jw Ew. destruct (Haff w) as [j' [Ej' H']]. rewrite Ew in Ej'. injection Ej' as <-. now apply H'. }
  assert (HL : L v' = L v + RtoC damp * L x).
  { unfold L. rewrite <- csum_scal_l, <- csum_plus. apply csum_ext. intros q _. rewrite Hv'. destruct (v q i), (x q i).
    unfold Re, Im, Cplus, Cmult, RtoC; cbn [fst snd]. apply injective_projections; cbn [fst snd]; ring. }
  assert (Hbump : forall u q, (q < num_n)%nat -> L (bump u q v) = L v + (A k q i * RtoC (Re u) + B k q i * RtoC (Im u)) * RtoC DV).
  { intros u q Hq. unfold L.
    transitivity (csum (seq 0 num_n) (fun q' => A k q' i * RtoC (Re (v q' i)) + B k q' i * RtoC (Im (v q' i))) +
                  csum (seq 0 num_n) (fun q' => if (q' =? q)%nat then (A k q' i * RtoC (Re u) + B k q' i * RtoC (Im u)) * RtoC DV else RtoC 0)).
    - rewrite <- csum_plus. apply csum_ext. intros q' _. unfold bump. destruct (Nat.eqb_spec q' q); destruct (v q' i), u;
      unfold Re, Im, Cplus, Cmult, RtoC; cbn [fst snd]; apply injective_projections; cbn [fst snd]; ring.
    - f_equal. rewrite (csum_single _ q); [now rewrite Nat.eqb_refl|assumption|]. intros k' _ Hn. destruct (Nat.eqb_spec k' q); [contradiction|reflexivity]. }
  assert (Hx : - zt k * L x - x k i = - residual vt zt ij v k i).
  { rewrite <- Heq.
    transitivity (csum (seq 0 num_n) (fun q => - zt k * (A k q i * RtoC (Re (x q i)) + B k q i * RtoC (Im (x q i))) + (if (q =? k)%nat then - x q i else RtoC 0))).
    - rewrite csum_plus, csum_scal_l. unfold L. rewrite (csum_single num_n k (fun q => if (q =? k)%nat then - x q i else RtoC 0)); [rewrite Nat.eqb_refl; ring|assumption|].
      intros k' _ Hn. destruct (Nat.eqb_spec k' k); [contradiction|reflexivity].
    - apply csum_ext. intros q Hq. apply in_seq in Hq. assert (Hq' : (q < num_n)%nat) by lia. destruct (Eb q Hq') as [E1 E2].
      assert (HD := DV_neq0). set (dl := if (q =? k)%nat then RtoC 1 else RtoC 0).
      assert (Q : forall u jw, qt (bump u q v) = Ok jw -> (residual vt zt jw (bump u q v) k i - residual vt zt ij v k i) / RtoC DV =
                    - zt k * (A k q i * RtoC (Re u) + B k q i * RtoC (Im u)) - u * dl).
      { intros u jw Ew. unfold residual. rewrite (Hcur _ _ Ew), (Hcur _ _ E0), Hbump by assumption.
        unfold bump, dl. rewrite (Nat.eqb_sym k q). destruct (q =? k)%nat; field; assumption. }
      rewrite (Q _ _ E1), (Q _ _ E2). unfold dl. destruct (x q i) as [xr xi]. destruct (q =? k)%nat;
        unfold Re, Im, Cminus, Cplus, Copp, Cmult, RtoC, Ci; cbn [fst snd]; apply injective_projections; cbn [fst snd]; ring. }
  unfold residual. rewrite (Hcur _ _ Eij'), (Hcur _ _ E0), HL, Hv'.
  replace (vt k - zt k * (c k i + (L v + RtoC damp * L x)) - (v k i + x k i * RtoC damp))
    with (vt k - zt k * (c k i + L v) - v k i + RtoC damp * (- zt k * L x - x k i)) by ring.
  rewrite Hx. unfold residual. rewrite (Hcur _ _ E0). rewrite RtoC_minus. ring.
Qed.
End Affine.

Section More.
Variables num_n npts : nat.
Variable qt : arr2 -> res arr2.
Variable inv : nat -> (nat -> nat -> R) -> option (nat -> nat -> R).
Variables vt zt : nat -> C.
Variables stop damp : R.
Variable max_it : Z.
Hypothesis inv_right : forall n M N, inv n M = Some N -> right_inverse n M N.
Open Scope C_scope.

Lemma affine_steps n v v' : affine_junction num_n npts qt -> msteps num_n npts qt inv vt zt damp n v v' ->
  forall ij ij', qt v = Ok ij -> qt v' = Ok ij' -> forall k i, (k < num_n)%nat -> (i < npts)%nat ->
  residual vt zt ij' v' k i = RtoC ((1 - damp) ^ n) * residual vt zt ij v k i.
Proof.
  intros Ha H. induction H as [v|n v v1 v2 H IH St]; intros ij ij' E E' k i Hk Hi.
  - rewrite E in E'. injection E' as <-. simpl. ring.
  - assert (exists j1, qt v1 = Ok j1) as [j1 E1] by (destruct St as [j1 [js [E1 _]]]; eauto).
    rewrite (affine_step num_n npts qt inv vt zt damp inv_right v1 v2 j1 ij' Ha St E1 E' k i Hk Hi).
    rewrite (IH ij j1 E E1 k i Hk Hi). cbn [pow]. rewrite RtoC_mult. ring.
Qed.

(** Undamped: whatever the number of iterations allowed, either nothing had to be done or the result is exact. *)
Lemma affine_run v v' o : affine_junction num_n npts qt -> damp = 1%R -> (1 <= max_it)%Z ->
  run_newton num_n npts qt inv vt zt stop damp max_it v = (v', Ok o) ->
  (v' = v /\ l_iter o = 0%Z /\ l_why o = Converged) \/
  exists ij, qt v' = Ok ij /\ forall k i, (k < num_n)%nat -> (i < npts)%nat -> residual vt zt ij v' k i = RtoC 0.
Proof.
  intros Ha Hd Hm H. apply run_ended in H; [|lia]. destruct H as [m [Hs Hw]].
  destruct m as [|m].
  - inversion Hs; subst. left. destruct (l_why o).
    + destruct Hw as [ij [mask [A _]]]. split; [reflexivity|]. split; [lia|reflexivity].
    + destruct Hw as [ij [mask [A [B _]]]]. lia.
    + destruct Hw; lia.
  - right. assert (E' : exists ij', qt v' = Ok ij') by (destruct Ha as [c [A [B Ha]]]; destruct (Ha v') as [ij' [E' _]]; eauto).
    destruct E' as [ij' E']. exists ij'. split; [assumption|]. intros k i Hk Hi.
    assert (E : exists ij, qt v = Ok ij) by (destruct Ha as [c [A [B Ha']]]; destruct (Ha' v) as [ij [E _]]; eauto).
    destruct E as [ij E]. rewrite (affine_steps _ _ _ Ha Hs ij ij' E E' k i Hk Hi). rewrite Hd. 
    replace (1 - 1)%R with 0%R by ring. rewrite pow_i by lia. ring.
Qed.

(** A signal without impedance moves straight towards its source voltage. *)
Lemma zero_impedance_step v v' k i : mstep num_n npts qt inv vt zt damp v v' -> (k < num_n)%nat -> (i < npts)%nat -> zt k = RtoC 0 ->
  vt k - v' k i = RtoC (1 - damp) * (vt k - v k i).
Proof.
  intros St Hk Hi Hz. apply mstep_newton in St; [|assumption]. destruct St as [x [[ij [ire [iim [E0 [Eb Heq]]]]] Hv']].
  specialize (Heq k i Hk Hi). unfold residual in Heq. rewrite Hz in Heq.
  rewrite (csum_ext _ _ (fun q => if (q =? k)%nat then - x q i else RtoC 0)) in Heq.
  - rewrite (csum_single num_n k) in Heq; [|assumption|].
    + rewrite Nat.eqb_refl in Heq. rewrite Hv'. assert (Hx : x k i = vt k - v k i).
      { transitivity (- - x k i); [ring|]. rewrite Heq. ring. }
      rewrite Hx, RtoC_minus. ring.
    + intros q _ Hn. destruct (Nat.eqb_spec q k); [contradiction|reflexivity].
  - intros q _. assert (HD := DV_neq0). set (dl := if (q =? k)%nat then RtoC 1 else RtoC 0).
    assert (Q : forall u jw, (vt k - RtoC 0 * jw k i - bump u q v k i - (vt k - RtoC 0 * ij k i - v k i)) / RtoC DV = - (u * dl)).
    { intros u jw. unfold bump, dl. rewrite (Nat.eqb_sym k q). destruct (q =? k)%nat; field; assumption. }
    rewrite !Q. unfold dl. destruct (x q i) as [xr xi]. destruct (q =? k)%nat;
        unfold Re, Im, Cminus, Cplus, Copp, Cmult, RtoC, Ci; cbn [fst snd]; apply injective_projections; cbn [fst snd]; ring.
Qed.
End More.
