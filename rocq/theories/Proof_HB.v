(** The Newton loop of harmonic_balance: errors, masks, iteration structure and the
    linear algebra of one correction, for any junction. *)
From Coq Require Import List ZArith Lia Bool Arith Reals Lra.
From Coquelicot Require Import Complex.
From Verif Require Import Base Sums Round Model_QtCurrent Spec_QtCurrent Model_Circuit Proof_Circuit Model_HB Spec_HB.
Import ListNotations.

(** ** Extended values *)

Lemma xle_fin a s : xle_r a s = true <-> exists x, a = Fin x /\ (x <= s)%R.
Proof.
  destruct a as [x| |]; simpl; split; try discriminate.
  - destruct (Rleb_spec x s); [eauto|discriminate].
  - intros [y [[= <-] H]]. destruct (Rleb_spec x s); [reflexivity|lra].
  - intros [y [E _]]; discriminate.
  - intros [y [E _]]; discriminate.
Qed.
Lemma xlt_fin a s : xlt_r a s = true <-> exists x, a = Fin x /\ (x < s)%R.
Proof.
  destruct a as [x| |]; simpl; split; try discriminate.
  - destruct (Rltb_spec x s); [eauto|discriminate].
  - intros [y [[= <-] H]]. destruct (Rltb_spec x s); [reflexivity|lra].
  - intros [y [E _]]; discriminate.
  - intros [y [E _]]; discriminate.
Qed.

Lemma x_trichotomy a s : xle_r a s = false -> xgt_r a s = false -> a = NaN.
Proof. destruct a as [x| |]; simpl; try discriminate; [|reflexivity]. destruct (Rleb_spec x s), (Rltb_spec s x); try discriminate; lra. Qed.
Lemma xgt_not_le a s : xgt_r a s = true -> xle_r a s = false.
Proof. destruct a as [x| |]; simpl; try discriminate; [|reflexivity]. destruct (Rleb_spec x s), (Rltb_spec s x); try discriminate; try lra; reflexivity. Qed.

Lemma npmax2_nan a b : npmax2 a b = NaN <-> a = NaN \/ b = NaN.
Proof. destruct a, b; simpl; split; try tauto; try discriminate; intros [H|H]; discriminate. Qed.
Lemma npmax2_le a b s : xle_r (npmax2 a b) s = true <-> xle_r a s = true /\ xle_r b s = true.
Proof.
  destruct a as [x| |], b as [y| |]; simpl; split; try discriminate; try tauto; try (intros [? ?]; discriminate).
  - destruct (Rleb_spec (Rmax x y) s); [|discriminate]. intros _. assert (x <= Rmax x y)%R by apply Rmax_l. assert (y <= Rmax x y)%R by apply Rmax_r.
    destruct (Rleb_spec x s), (Rleb_spec y s); auto; lra.
  - destruct (Rleb_spec x s), (Rleb_spec y s); intros [? ?]; try discriminate. destruct (Rleb_spec (Rmax x y) s); [reflexivity|].
    exfalso. unfold Rmax in *. destruct (Rle_dec x y); lra.
Qed.

Lemma npmax_nan l : npmax l = NaN <-> l = [] \/ In NaN l.
Proof.
  destruct l as [|a l]; simpl; [tauto|]. transitivity (a = NaN \/ In NaN l); [|split; [tauto|intros [H|H]; [discriminate|assumption]]].
  revert a. induction l as [|b l IH]; intros a; simpl; [tauto|]. rewrite IH, npmax2_nan. tauto.
Qed.
Lemma npmax_le l s : xle_r (npmax l) s = true <-> l <> [] /\ forall a, In a l -> xle_r a s = true.
Proof.
  destruct l as [|a l]; simpl; [split; [discriminate|intros [H _]; congruence]|].
  transitivity (xle_r a s = true /\ forall b, In b l -> xle_r b s = true).
  - revert a. induction l as [|b l IH]; intros a; simpl; [split; [auto; intros; tauto|tauto]|]. rewrite IH, npmax2_le. split.
    + intros [[H1 H2] H3]. split; [assumption|]. intros c [<-|Hc]; auto.
    + intros [H1 H2]. repeat split; auto.
  - split; [intros [H1 H2]; split; [discriminate|]; intros c [<-|Hc]; auto|]. intros [_ H]. auto.
Qed.

Lemma pymax_le a b s : xle_r (pymax a b) s = true -> xle_r a s = true /\ (b = NaN \/ xle_r b s = true).
Proof.
  unfold pymax. destruct a as [x| |], b as [y| |]; simpl; try discriminate; try tauto.
  destruct (Rltb_spec x y); simpl; destruct (Rleb_spec x s), (Rleb_spec y s); intros; try discriminate; auto; lra.
Qed.
Lemma pymax_le_back a b s : xle_r a s = true -> xle_r b s = true -> xle_r (pymax a b) s = true.
Proof. unfold pymax. destruct (xgt b a); auto. Qed.
Lemma pymax_nan a b : pymax a b = NaN <-> a = NaN.
Proof.
  unfold pymax. destruct a as [x| |], b as [y| |]; simpl; try tauto; split; try discriminate; try tauto.
  destruct (Rltb x y); discriminate.
Qed.

(** The running maximum over the signals. *)
Definition running (Mx : nat -> xr) (n : nat) : xr := fold_left (fun m k => pymax (Mx k) m) (seq 0 n) (Fin 0).
Lemma running_S Mx n : running Mx (S n) = pymax (Mx n) (running Mx n).
Proof. unfold running. rewrite seq_S, fold_left_app. reflexivity. Qed.
Lemma running_nan Mx n : running Mx (S n) = NaN <-> Mx n = NaN.
Proof. rewrite running_S. apply pymax_nan. Qed.
Lemma running_last Mx n s : xle_r (running Mx (S n)) s = true -> xle_r (Mx n) s = true.
Proof. rewrite running_S. intros H. now apply pymax_le in H. Qed.
Lemma running_le Mx n s : xle_r (running Mx n) s = true ->
  forall k, (k < n)%nat -> (forall k', (k <= k' < n)%nat -> Mx k' <> NaN) -> xle_r (Mx k) s = true.
Proof.
  induction n as [|n IH]; intros H k Hk Hn; [lia|]. rewrite running_S in H. apply pymax_le in H. destruct H as [H1 H2].
  destruct (Nat.eq_dec k n) as [->|E]; [assumption|]. apply IH; [|lia|intros; apply Hn; lia].
  destruct H2 as [H2|H2]; [|assumption]. destruct n; [lia|]. apply (proj1 (running_nan Mx n)) in H2. exfalso. apply (Hn n); [lia|assumption].
Qed.
Lemma running_le_back Mx n s : (0 <= s)%R -> (forall k, (k < n)%nat -> xle_r (Mx k) s = true) -> xle_r (running Mx n) s = true.
Proof.
  intros Hs. induction n as [|n IH]; intros H; [unfold running; simpl; destruct (Rleb_spec 0 s); [reflexivity|lra]|].
  rewrite running_S. apply pymax_le_back; [apply H; lia|apply IH; intros; apply H; lia].
Qed.

(** ** Relative errors *)
Lemma Cmod_0_iff z : Cmod z = 0%R <-> z = RtoC 0.
Proof. split; [apply Cmod_eq_0|intros ->; apply Cmod_0]. Qed.

Lemma xdiv_nan x y : xdiv x y = NaN <-> x = 0%R /\ y = 0%R.
Proof. unfold xdiv. destruct (Reqb_spec y 0), (Reqb_spec x 0); split; try discriminate; tauto. Qed.
Lemma xdiv_le x y s : (0 <= y)%R -> xle_r (xdiv x y) s = true <-> (y <> 0 /\ x <= s * y)%R.
Proof.
  intros Hy. unfold xdiv. destruct (Reqb_spec y 0) as [->|E].
  - destruct (Reqb x 0); simpl; split; try discriminate; tauto.
  - simpl. assert (0 < y)%R by lra. destruct (Rleb_spec (x / y) s) as [H1|H1]; split; try discriminate; try tauto.
    + intros _. split; [assumption|]. apply Rmult_le_compat_r with (r := y) in H1; [|lra]. unfold Rdiv in H1. rewrite Rmult_assoc, Rinv_l, Rmult_1_r in H1; lra.
    + intros [_ H2]. exfalso. apply H1. apply Rmult_le_reg_r with y; [assumption|]. unfold Rdiv. rewrite Rmult_assoc, Rinv_l, Rmult_1_r; lra.
Qed.
Lemma xdiv_lt x y s : (0 <= y)%R -> xlt_r (xdiv x y) s = true <-> (y <> 0 /\ x < s * y)%R.
Proof.
  intros Hy. unfold xdiv. destruct (Reqb_spec y 0) as [->|E].
  - destruct (Reqb x 0); simpl; split; try discriminate; tauto.
  - simpl. assert (0 < y)%R by lra. destruct (Rltb_spec (x / y) s) as [H1|H1]; split; try discriminate; try tauto.
    + intros _. split; [assumption|]. apply Rmult_lt_compat_r with (r := y) in H1; [|lra]. unfold Rdiv in H1. rewrite Rmult_assoc, Rinv_l, Rmult_1_r in H1; lra.
    + intros [_ H2]. exfalso. apply H1. apply Rmult_lt_reg_r with y; [assumption|]. unfold Rdiv. rewrite Rmult_assoc, Rinv_l, Rmult_1_r; lra.
Qed.

Section Errors.
Variables num_n npts : nat.
Variables err vj : arr2.

Lemma max_rel_running : max_rel_error num_n npts err vj = running (fun k => npmax (map (rel_error err vj k) (seq 0 npts))) num_n.
Proof. reflexivity. Qed.

Lemma signal_le k s : (1 <= npts)%nat -> xle_r (npmax (map (rel_error err vj k) (seq 0 npts))) s = true <->
  forall i, (i < npts)%nat -> vj k i <> RtoC 0 /\ (Cmod (err k i) <= s * Cmod (vj k i))%R.
Proof.
  intros Hn. rewrite npmax_le. split.
  - intros [_ H] i Hi. specialize (H (rel_error err vj k i)). rewrite in_map_iff in H.
    assert (H' : xle_r (rel_error err vj k i) s = true) by (apply H; exists i; split; [reflexivity|apply in_seq; lia]).
    unfold rel_error in H'. apply xdiv_le in H'; [|apply Cmod_ge_0]. now rewrite Cmod_0_iff in H'.
  - intros H. split; [destruct npts; [lia|discriminate]|]. intros a Ha. apply in_map_iff in Ha. destruct Ha as [i [<- Hi]]. apply in_seq in Hi.
    unfold rel_error. apply xdiv_le; [apply Cmod_ge_0|]. rewrite Cmod_0_iff. apply H. lia.
Qed.
Lemma signal_nan k : (1 <= npts)%nat -> npmax (map (rel_error err vj k) (seq 0 npts)) = NaN <->
  exists i, (i < npts)%nat /\ vj k i = RtoC 0 /\ err k i = RtoC 0.
Proof.
  intros Hn. rewrite npmax_nan. split.
  - intros [H|H]; [destruct npts; [lia|discriminate]|]. apply in_map_iff in H. destruct H as [i [E Hi]]. apply in_seq in Hi.
    exists i. split; [lia|]. unfold rel_error in E. apply xdiv_nan in E. now rewrite !Cmod_0_iff in E.
  - intros [i [Hi [E1 E2]]]. right. apply in_map_iff. exists i. split; [|apply in_seq; lia].
    unfold rel_error. apply xdiv_nan. now rewrite !Cmod_0_iff.
Qed.

(** Convergence: the bound holds for every signal after the last undefined one. *)
Lemma max_rel_le s : (1 <= npts)%nat -> xle_r (max_rel_error num_n npts err vj) s = true ->
  forall k, (k < num_n)%nat ->
  (forall k' i, (k <= k' < num_n)%nat -> (i < npts)%nat -> ~ (vj k' i = RtoC 0 /\ err k' i = RtoC 0)) ->
  forall i, (i < npts)%nat -> vj k i <> RtoC 0 /\ (Cmod (err k i) <= s * Cmod (vj k i))%R.
Proof.
  intros Hn H k Hk Hu i Hi. rewrite max_rel_running in H. apply (proj1 (signal_le k s Hn)); [|assumption]. 
  apply (running_le (fun k => npmax (map (rel_error err vj k) (seq 0 npts))) _ _ H k Hk). intros k' Hk' E.
  apply signal_nan in E; [|assumption]. destruct E as [j [Hj E]]. now apply (Hu k' j).
Qed.
Lemma max_rel_last s : (1 <= npts)%nat -> (1 <= num_n)%nat -> xle_r (max_rel_error num_n npts err vj) s = true ->
  forall i, (i < npts)%nat -> vj (num_n - 1)%nat i <> RtoC 0 /\ (Cmod (err (num_n - 1)%nat i) <= s * Cmod (vj (num_n - 1)%nat i))%R.
Proof.
  intros Hn Hk H i Hi. rewrite max_rel_running in H. destruct num_n as [|n]; [lia|]. apply running_last in H.
  replace (S n - 1)%nat with n by lia. now apply (proj1 (signal_le n s Hn) H).
Qed.
Lemma max_rel_le_back s : (1 <= npts)%nat -> (0 <= s)%R ->
  (forall k i, (k < num_n)%nat -> (i < npts)%nat -> vj k i <> RtoC 0 /\ (Cmod (err k i) <= s * Cmod (vj k i))%R) ->
  xle_r (max_rel_error num_n npts err vj) s = true.
Proof. intros Hn Hs H. rewrite max_rel_running. apply running_le_back; [assumption|]. intros k Hk. apply signal_le; auto. Qed.
Lemma max_rel_nan : (1 <= npts)%nat -> (1 <= num_n)%nat -> max_rel_error num_n npts err vj = NaN <->
  exists i, (i < npts)%nat /\ vj (num_n - 1)%nat i = RtoC 0 /\ err (num_n - 1)%nat i = RtoC 0.
Proof.
  intros Hn Hk. rewrite max_rel_running. destruct num_n as [|n]; [lia|]. rewrite running_nan. replace (S n - 1)%nat with n by lia.
  now apply signal_nan.
Qed.

Lemma finished_spec s i : finished_points num_n s err vj i = true <->
  forall k, (k < num_n)%nat -> vj k i <> RtoC 0 /\ (Cmod (err k i) < s * Cmod (vj k i))%R.
Proof.
  unfold finished_points. induction num_n as [|n IH]; [simpl; split; [intros; lia|reflexivity]|].
  rewrite seq_S, fold_left_app. cbn [fold_left plus]. rewrite andb_true_iff, IH. unfold rel_error at 1.
  rewrite xdiv_lt by apply Cmod_ge_0. rewrite Cmod_0_iff. split.
  - intros [H1 H2] k Hk. destruct (Nat.eq_dec k n) as [->|E]; [assumption|]. apply H1. lia.
  - intros H. split; [intros; apply H; lia|]. apply H. lia.
Qed.
End Errors.

(** ** The loop *)
Section Loop.
Variables num_n npts : nat.
Variable qt : arr2 -> res arr2.
Variable inv : nat -> (nat -> nat -> R) -> option (nat -> nat -> R).
Variables vt zt : nat -> C.
Variables stop damp : R.
Variable max_it : Z.

Definition rel_max (ij v : arr2) : xr := max_rel_error num_n npts (residual vt zt ij v) v.

(** One correction as the loop makes it. *)
Definition mstep (v v' : arr2) : Prop :=
  exists ij js, qt v = Ok ij /\ inv_jacobian num_n npts qt inv vt zt (residual vt zt ij v) v = Ok js /\
                v' = update num_n damp js (residual vt zt ij v) v.
Inductive msteps : nat -> arr2 -> arr2 -> Prop :=
| M0 v : msteps 0 v v
| MS n v v1 v2 : msteps n v v1 -> mstep v1 v2 -> msteps (S n) v v2.

Lemma msteps_l n : forall v v1 v2, mstep v v1 -> msteps n v1 v2 -> msteps (S n) v v2.
Proof.
  induction n as [|n IH]; intros v v1 v2 H1 H2; inversion H2; subst.
  - econstructor; [constructor|assumption].
  - econstructor; [apply IH with v1; eassumption|assumption].
Qed.

Definition mask_of (v : arr2) (m : nat -> bool) : Prop :=
  exists ij, qt v = Ok ij /\ m = finished_points num_n stop (residual vt zt ij v) v.

(** How the loop from iteration n can end normally. *)
Definition ended (n : Z) (v : arr2) (last : loop_out) (v' : arr2) (o : loop_out) : Prop :=
  exists m, msteps m v v' /\
  match l_why o with
  | Converged => exists ij mask, l_iter o = (n + Z.of_nat m)%Z /\ (l_iter o <= max_it)%Z /\ qt v' = Ok ij /\ xle_r (rel_max ij v') stop = true /\
      l_mask o = Some mask /\ mask = finished_points num_n stop (residual vt zt ij v') v'
  | HitLimit => exists ij mask, l_iter o = (n + Z.of_nat m)%Z /\ l_iter o = max_it /\ qt v' = Ok ij /\ xgt_r (rel_max ij v') stop = true /\
      l_mask o = Some mask /\ mask = finished_points num_n stop (residual vt zt ij v') v'
  | RanOut => (Z.of_nat m = max_it + 1 - n)%Z /\
      match m with
      | O => o = last
      | S m' => l_iter o = max_it /\ exists v1 ij mask, msteps m' v v1 /\ mstep v1 v' /\ qt v1 = Ok ij /\ rel_max ij v1 = NaN /\
          l_mask o = Some mask /\ mask = finished_points num_n stop (residual vt zt ij v1) v1
      end
  end.

Lemma newton_ended : forall k n v last v' o, (n <= max_it + 1)%Z -> Z.to_nat (max_it + 1 - n) = k -> l_why last = RanOut ->
  newton num_n npts qt inv vt zt stop damp max_it (zrange n (max_it + 1)) v last = (v', Ok o) ->
  ended n v last v' o.
Proof.
  induction k as [|k IH]; intros n v last v' o Hn Hk Hl H.
  - rewrite zrange_nil in H by lia. cbn [newton] in H. injection H as <- <-. exists 0%nat. split; [constructor|]. rewrite Hl. split; [lia|reflexivity].
  - rewrite zrange_cons in H by lia. cbn [newton] in H. destruct (qt v) as [ij|e] eqn:Eq; [|discriminate].
    destruct (xle_r (max_rel_error num_n npts (residual vt zt ij v) v) stop) eqn:E1.
    { injection H as <- <-. exists 0%nat. split; [constructor|]. cbn. exists ij. eexists. repeat split; eauto; lia. }
    destruct (xgt_r (max_rel_error num_n npts (residual vt zt ij v) v) stop && (n =? max_it)%Z) eqn:E2.
    { injection H as <- <-. apply andb_true_iff in E2. destruct E2 as [E2 E3]. apply Z.eqb_eq in E3.
      exists 0%nat. split; [constructor|]. cbn. exists ij. eexists. repeat split; eauto; lia. }
    destruct (inv_jacobian num_n npts qt inv vt zt (residual vt zt ij v) v) as [js|e] eqn:Ej; [|discriminate].
    assert (St : mstep v (update num_n damp js (residual vt zt ij v) v)) by (exists ij, js; auto).
    set (v1 := update num_n damp js (residual vt zt ij v) v) in *. 
    apply IH in H; [|lia|lia|reflexivity]. destruct H as [m [Hm Hw]]. exists (S m). split; [now apply msteps_l with v1|].
    destruct (l_why o).
    + destruct Hw as [ij' [mask [A B]]]. exists ij', mask. split; [lia|exact B].
    + destruct Hw as [ij' [mask [A B]]]. exists ij', mask. split; [lia|exact B].
    + destruct Hw as [A B]. split; [lia|]. destruct m as [|m].
      * subst o. cbn. split; [lia|]. inversion Hm; subst. exists v, ij. eexists. split; [constructor|]. split; [assumption|]. split; [assumption|].
        split; [|split; reflexivity]. unfold rel_max. apply x_trichotomy with stop; [assumption|].
        apply andb_false_iff in E2. destruct E2 as [E2|E2]; [assumption|]. apply Z.eqb_neq in E2. lia.
      * destruct B as [B1 [w [ij' [mask [B2 B3]]]]]. split; [assumption|]. exists w, ij', mask. split; [now apply msteps_l with v1|assumption].
Qed.

Lemma run_ended v v' o : (0 <= max_it)%Z -> run_newton num_n npts qt inv vt zt stop damp max_it v = (v', Ok o) ->
  ended 0 v {| l_iter := 0; l_mask := None; l_why := RanOut |} v' o.
Proof. intros Hm H. eapply newton_ended; [lia|reflexivity|reflexivity|exact H]. Qed.

Lemma run_negative v : (max_it < 0)%Z -> run_newton num_n npts qt inv vt zt stop damp max_it v = (v, Ok {| l_iter := 0; l_mask := None; l_why := RanOut |}).
Proof. intros H. unfold run_newton. rewrite zrange_nil by lia. reflexivity. Qed.

(** A run that meets the target at its start stops there. *)
Lemma run_immediate v ij : (0 <= max_it)%Z -> qt v = Ok ij -> xle_r (rel_max ij v) stop = true ->
  run_newton num_n npts qt inv vt zt stop damp max_it v =
  (v, Ok {| l_iter := 0; l_mask := Some (finished_points num_n stop (residual vt zt ij v) v); l_why := Converged |}).
Proof. intros Hm Hq Hx. unfold run_newton. rewrite zrange_cons by lia. cbn [newton]. rewrite Hq. unfold rel_max in Hx. now rewrite Hx. Qed.
End Loop.
