(** Proofs about EmbeddingCircuit, continued: constructor, units, power. *)
From Coq Require Import List ZArith Bool Ascii String Reals Lia Lra.
From Coquelicot Require Import Complex.
From Verif Require Import Base Model_QtCurrent Model_Circuit Spec_Circuit Proof_Case Proof_Circuit Proof_QtApi2.
Import ListNotations.
Open Scope R_scope.

(** ** C20, C24: constructor *)
Section Init.
Variables h e : R.

Definition good_args (num_f num_p : pynum) (vb_min vb_max : R) (vb_npts : pynum) (vgap rn : option R) : Prop :=
  (exists nf, num_f = PInt nf /\ (1 <= nf <= 4)%Z) /\ (exists np, num_p = PInt np /\ (1 <= np)%Z) /\
  (exists n, vb_npts = PInt n /\ (1 <= n)%Z) /\ vb_min <= vb_max /\ ~ (vgap <> None /\ rn = Some 0).

Lemma num_f_check x : existsb (Reqb x) [1; 2; 3; 4] = true <-> x = 1 \/ x = 2 \/ x = 3 \/ x = 4.
Proof.
  simpl. rewrite !orb_true_iff. split.
  - intros [H|[H|[H|[H|H]]]]; try discriminate; destruct (Reqb_spec x 1), (Reqb_spec x 2), (Reqb_spec x 3), (Reqb_spec x 4); try discriminate; auto.
  - intros [H|[H|[H|H]]]; subst; [left|right; left|right; right; left|right; right; right; left];
    unfold Reqb; destruct (Req_EM_T _ _); try reflexivity; exfalso; lra.
Qed.

Lemma init_ok_iff num_f num_p vb_min vb_max vb_npts fgap vgap rn name :
  (exists c, init h e num_f num_p vb_min vb_max vb_npts fgap vgap rn name = Ok c) <->
  good_args num_f num_p vb_min vb_max vb_npts vgap rn.
Proof.
  unfold init, good_args. split.
  - intros [c H]. apply bind_ok in H as [u1 [H1 H]]. apply bind_ok in H as [u2 [H2 H]]. apply bind_ok in H as [u3 [H3 H]].
    apply bind_ok in H as [u4 [H4 H]]. apply bind_ok in H as [ig [H5 H]].
    unfold guard in *. destruct (existsb _ _) eqn:E1 in H1; [|discriminate]. destruct (_ && _) eqn:E2 in H2; [|discriminate].
    destruct (_ && _) eqn:E3 in H3; [|discriminate]. destruct (Rleb_spec vb_min vb_max) as [E4|]; [|discriminate].
    destruct num_f as [nf|x]; [|discriminate]. destruct num_p as [np|x]; [|discriminate]. destruct vb_npts as [n|x]; [|discriminate].
    apply num_f_check in E1. simpl in E1, E2, E3. rewrite andb_true_r in E2.
    destruct (Rleb_spec 1 (IZR np)) as [E2'|]; [|discriminate]. destruct (Rleb_spec 1 (IZR n)) as [E3'|]; [|discriminate].
    split; [|split; [|split; [|split]]].
    + exists nf. split; [reflexivity|]. destruct E1 as [E|[E|[E|E]]]; apply eq_IZR in E; lia.
    + exists np. split; [reflexivity|]. now apply le_IZR.
    + exists n. split; [reflexivity|]. now apply le_IZR.
    + assumption.
    + intros [V ->]. destruct vgap; [|congruence]. destruct (Reqb_spec 0 0); [discriminate|lra].
  - intros [[nf [-> Hf]] [[np [-> Hp]] [[n [-> Hn]] [Hv Hr]]]].
    assert (E1 : existsb (Reqb (pynum_val (PInt nf))) [1; 2; 3; 4] = true).
    { apply num_f_check. simpl. assert (D : (nf = 1 \/ nf = 2 \/ nf = 3 \/ nf = 4)%Z) by lia.
      destruct D as [->|[->|[->| ->]]]; auto. }
    rewrite E1. cbn [guard bind pynum_val is_int andb].
    destruct (Rleb_spec 1 (IZR np)) as [_|N]; [|exfalso; apply N; apply IZR_le; lia]. cbn [guard bind andb].
    destruct (Rleb_spec 1 (IZR n)) as [_|N]; [|exfalso; apply N; apply IZR_le; lia]. cbn [guard bind andb].
    destruct (Rleb_spec vb_min vb_max) as [_|N]; [|contradiction]. cbn [guard bind].
    destruct vgap as [v|]; [destruct rn as [r|]|]; cbn [bind]; try (eexists; reflexivity).
    destruct (Reqb_spec r 0) as [->|_]; cbn [bind]; [|eexists; reflexivity]. exfalso. apply Hr. split; [discriminate|reflexivity].
Qed.

Lemma rect_repeat {A} (x : A) a b : rectangular (repeat (repeat x b) a) a b.
Proof. split; [apply repeat_length|]. intros row H. apply repeat_spec in H. subst. apply repeat_length. Qed.

(** What a new circuit looks like. *)
Lemma init_fields nf np vb_min vb_max n fgap vgap rn name c :
  init h e (PInt nf) (PInt np) vb_min vb_max (PInt n) fgap vgap rn name = Ok c ->
  c_num_f c = Z.to_nat nf /\ c_num_p c = Z.to_nat np /\ c_npts c = Z.to_nat n /\ c_name c = name /\
  well_shaped c /\ writeable c /\
  (forall f, (f <= c_num_f c)%nat -> nth_error (c_freq c) f = Some 0) /\
  (forall f p, (f <= c_num_f c)%nat -> (p <= c_num_p c)%nat -> 
     cell (c_vt c) f p = Some (Some (RtoC 0)) /\ cell (c_zt c) f p = Some (RtoC 0) /\ cell (c_comment c) f p = Some ""%string) /\
  c_vb c = linspace vb_min vb_max (Z.to_nat n) /\ c_rn c = rn /\
  c_vgap c = (match vgap, fgap with Some v, _ => Some v | None, Some f => Some (f * h / e) | None, None => None end) /\
  c_fgap c = (match fgap, vgap with Some f, _ => Some f | None, Some v => Some (v * e / h) | None, None => None end) /\
  c_igap c = (match vgap, rn with Some v, Some r => Some (v / r) | _, _ => None end).
Proof.
  unfold init. intros H. apply bind_ok in H as [u1 [H1 H]]. apply bind_ok in H as [u2 [H2 H]]. apply bind_ok in H as [u3 [H3 H]].
  apply bind_ok in H as [u4 [H4 H]]. apply bind_ok in H as [ig [H5 H]]. injection H as <-. 
  cbn [c_num_f c_num_p c_npts c_name c_freq c_vt c_zt c_comment c_vb c_rn c_vgap c_fgap c_igap].
  set (NF := Z.to_nat nf). set (NP := Z.to_nat np).
  assert (RP : forall (A : Type) (x : A) a k, (k < a)%nat -> nth_error (repeat x a) k = Some x) by (intros; now apply nth_error_repeat).
  split; [reflexivity|]. split; [reflexivity|]. split; [reflexivity|]. split; [reflexivity|].
  split. { unfold well_shaped. cbn [c_num_f c_num_p c_num_n c_npts c_name c_freq c_vt c_zt c_comment c_vb].
    split; [reflexivity|]. split; [apply repeat_length|]. split; [apply rect_repeat|]. split; [apply rect_repeat|]. split; [apply rect_repeat|].
    unfold linspace, tab. now rewrite map_length, seq_length. }
  split; [repeat split|]. split; [intros f Hf; apply RP; lia|].
  split. { intros f p Hf Hp. unfold cell. rewrite ?RP by lia; cbv iota; rewrite ?RP by lia; auto. }
  split; [reflexivity|]. split; [reflexivity|]. split; [reflexivity|]. split; [reflexivity|].
  destruct vgap as [v|], rn as [r|]; simpl in H5; try congruence. destruct (Reqb r 0); congruence.
Qed.

(** The two gap attributes of a new circuit agree if only one was given. *)
Lemma init_gap num_f num_p vb_min vb_max n fgap vgap rn name c : e <> 0 -> h <> 0 ->
  init h e num_f num_p vb_min vb_max n fgap vgap rn name = Ok c -> fgap = None \/ vgap = None ->
  match c_vgap c, c_fgap c with Some v, Some f => v = f * h / e | None, None => fgap = None /\ vgap = None | _, _ => False end.
Proof.
  intros He Hh H D.
  assert (G : good_args num_f num_p vb_min vb_max n vgap rn) by (eapply init_ok_iff; eauto).
  destruct G as [[nf [-> _]] [[np [-> _]] [[k [-> _]] _]]].
  apply init_fields in H as (_&_&_&_&_&_&_&_&_&_&V&F&_). rewrite V, F.
  destruct fgap as [f|], vgap as [v|]; try (destruct D; discriminate); auto; field; auto.
Qed.
End Init.

(** ** C27 *)
Lemma linspace_nth lo hi n i : (i < n)%nat ->
  nth_error (linspace lo hi n) i = Some (if (1 <? n)%nat then lo + INR i * ((hi - lo) / INR (n - 1)) else lo).
Proof.
  intros H. unfold linspace, tab.
  rewrite nth_error_map. rewrite (nth_error_nth' (seq 0 n) 0%nat) by now rewrite seq_length. simpl. rewrite seq_nth by assumption. simpl.
  destruct (Nat.ltb_spec 1 n) as [Hn|Hn]; simpl.
  - destruct (Nat.eqb_spec i (n - 1)) as [->|Hi]; [|reflexivity]. f_equal.
    assert (0 < INR (n - 1)) by (apply lt_0_INR; lia). field. lra.
  - assert (i = 0)%nat by lia. subst. simpl INR. f_equal. ring.
Qed.

Lemma linspace_props lo hi n : lo <= hi -> (1 <= n)%nat ->
  List.length (linspace lo hi n) = n /\
  nth_error (linspace lo hi n) 0 = Some lo /\
  ((2 <= n)%nat -> nth_error (linspace lo hi n) (n - 1) = Some hi) /\
  (exists d, 0 <= d /\ forall i x y, nth_error (linspace lo hi n) i = Some x -> nth_error (linspace lo hi n) (S i) = Some y -> y - x = d).
Proof.
  intros Hl Hn. assert (L : List.length (linspace lo hi n) = n) by (unfold linspace, tab; now rewrite map_length, seq_length).
  split; [exact L|]. split.
  { rewrite linspace_nth by lia. destruct (1 <? n)%nat; f_equal; simpl; ring. }
  split.
  { intros H2. rewrite linspace_nth by lia. destruct (Nat.ltb_spec 1 n); [|lia]. f_equal.
    assert (0 < INR (n - 1)) by (apply lt_0_INR; lia). field. lra. }
  exists (if (1 <? n)%nat then (hi - lo) / INR (n - 1) else 0). split.
  { destruct (Nat.ltb_spec 1 n); [|lra]. apply Rmult_le_pos; [lra|]. left. apply Rinv_0_lt_compat. apply lt_0_INR. lia. }
  intros i x y Hx Hy. assert (Hi : (S i < n)%nat) by (rewrite <- L; apply nth_error_Some; congruence).
  rewrite linspace_nth in Hx, Hy by lia. destruct (Nat.ltb_spec 1 n); [|lia]. rewrite S_INR in Hy. injection Hx as <-. injection Hy as <-. ring.
Qed.

(** ** C21: power *)
Lemma get2_set2 {A} (m m' : list (list A)) f p x : set2 m f p x = Ok m' -> get2 m' f p = Ok x.
Proof.
  intros H. apply set2_ok in H as [j [k [row [N1 [N2 [N3 [L [Cx _]]]]]]]].
  unfold cell in Cx. destruct (nth_error m' j) as [row'|] eqn:E; [|discriminate].
  assert (Lm : List.length m' = List.length m) by (rewrite <- (map_length (@List.length A)), L; apply map_length).
  assert (Lr : List.length row' = List.length row).
  { pose proof (map_nth_error (@List.length A) _ _ E) as E'. pose proof (map_nth_error (@List.length A) _ _ N2) as N2'. rewrite L in E'. congruence. }
  apply (get2_cell m' f p j k row' x); [now rewrite Lm|assumption|now rewrite Lr|assumption].
Qed.

Lemma ln10_pos : 0 < ln 10. Proof. rewrite <- ln_1. apply ln_increasing; lra. Qed.

Lemma log10_Rpower x : log10 (Rpower 10 x) = x.
Proof. unfold log10. rewrite ln_Rpower. field. pose proof ln10_pos. lra. Qed.

Lemma Rpower_log10 x : 0 < x -> Rpower 10 (log10 x) = x.
Proof.
  intros H. unfold Rpower, log10. replace (ln x / ln 10 * ln 10) with (ln x) by (field; pose proof ln10_pos; lra). now apply exp_ln.
Qed.

(** Reading a watt value in a unit. *)
Definition read_in (u : punit) (w : R) : xval :=
  match u with
  | UW => XFin w | UmW => XFin (w / (/ 10 ^ 3)) | UuW => XFin (w / (/ 10 ^ 6)) | UnW => XFin (w / (/ 10 ^ 9))
  | UpW => XFin (w / (/ 10 ^ 12)) | UfW => XFin (w / (/ 10 ^ 15))
  | UdBm => xscale 10 (np_log10 (w * 10 ^ 3)) | UdBW => xscale 10 (np_log10 w)
  end.

Lemma to_watts_unit s u x : names_punit s u -> to_watts x s = Ok (in_watts u x).
Proof. unfold names_punit, to_watts. rewrite circuit_case. intros ->. destruct u; reflexivity. Qed.

Lemma available_power_unit c f p s u vgap rn zt vt : names_punit s u ->
  c_vgap c = Some vgap -> c_rn c = Some rn -> get2 (c_zt c) f p = Ok zt -> get2 (c_vt c) f p = Ok (Some vt) ->
  Re zt * rn <> 0 ->
  available_power c f p s = Ok (read_in u (Cmod (Cmult vt (RtoC vgap)) ^ 2 / (Re zt * rn) / 8)).
Proof.
  intros Hu Hv Hr Hz Ht Hn. unfold available_power, names_punit in *. apply circuit_case in Hu. rewrite Hv, Hr, Ht, Hz, Hu. cbn [bind]. cbv zeta.
  destruct (Reqb_spec (Re zt * rn) 0); [contradiction|]. destruct u; reflexivity.
Qed.

Lemma in_watts_pos u x : is_dB u = true -> 0 < in_watts u x.
Proof.
  destruct u; try discriminate; intros _; simpl; unfold Rpower.
  - apply Rmult_lt_0_compat; [apply exp_pos|lra].
  - apply exp_pos.
Qed.

Lemma read_in_same u x : (is_dB u = false -> 0 <= in_watts u x) -> read_in u (in_watts u x) = XFin x.
Proof.
  intros H. destruct u; simpl read_in; simpl in_watts; try (f_equal; field).
  - unfold np_log10. assert (P : 0 < Rpower 10 (x / 10)) by apply exp_pos.
    replace (Rpower 10 (x / 10) * / (10 * (10 * (10 * 1))) * (10 * (10 * (10 * 1)))) with (Rpower 10 (x / 10)) by field.
    destruct (Rltb_spec 0 (Rpower 10 (x / 10))) as [_|N]; [|contradiction]. simpl. f_equal. rewrite log10_Rpower. field.
  - unfold np_log10. assert (P : 0 < Rpower 10 (x / 10)) by apply exp_pos.
    destruct (Rltb_spec 0 (Rpower 10 (x / 10))) as [_|N]; [|contradiction]. simpl. f_equal. rewrite log10_Rpower. field.
Qed.

Lemma read_in_other u w : 0 < w \/ is_dB u = false -> exists x, read_in u w = XFin x /\ in_watts u x = w.
Proof.
  intros H. destruct u; simpl read_in; simpl in_watts; try (eexists; split; [reflexivity|]; field).
  - destruct H as [H|]; [|discriminate]. unfold np_log10. assert (P : 0 < w * (10 * (10 * (10 * 1)))) by lra.
    destruct (Rltb_spec 0 (w * (10 * (10 * (10 * 1))))) as [_|N]; [|contradiction]. simpl. eexists; split; [reflexivity|].
    replace (10 * log10 (w * (10 * (10 * (10 * 1)))) / 10) with (log10 (w * (10 * (10 * (10 * 1))))) by field. rewrite Rpower_log10 by assumption. field.
  - destruct H as [H|]; [|discriminate]. unfold np_log10. destruct (Rltb_spec 0 w) as [_|N]; [|contradiction].
    simpl. eexists; split; [reflexivity|]. replace (10 * log10 w / 10) with (log10 w) by field. now apply Rpower_log10.
Qed.

Lemma set_power_result c c' power f p s u vgap rn zt : names_punit s u ->
  c_vgap c = Some vgap -> vgap <> 0 -> c_rn c = Some rn -> get2 (c_zt c) f p = Ok zt -> 0 < Re zt * rn ->
  0 <= in_watts u power -> set_available_power c power f p s = (c', Ok tt) ->
  forall s2 u2, names_punit s2 u2 -> available_power c' f p s2 = Ok (read_in u2 (in_watts u power)).
Proof.
  intros Hu Hv Hv0 Hr Hz Hp Hw Hs s2 u2 Hu2. unfold set_available_power in Hs. rewrite Hv, Hr, Hz in Hs. cbn [bind] in Hs.
  destruct (Reqb_spec (Cmod zt) 0) as [E|E].
  { apply Cmod_eq_0 in E. subst zt. unfold RtoC in Hp. simpl in Hp. exfalso. lra. }
  rewrite (to_watts_unit s u) in Hs by assumption. cbn [bind] in Hs. set (w := in_watts u power) in *.
  assert (X : 0 <= 8 * w * (Re zt * rn)) by (apply Rmult_le_pos; lra).
  destruct (Rltb_spec (8 * w * (Re zt * rn)) 0) as [N|_]; [lra|]. destruct (Reqb_spec vgap 0) as [N|_]; [contradiction|].
  apply done_cases in Hs as [[y [E1 [-> _]]]|[er [_ [_ D]]]]; [|discriminate].
  unfold put_vt in E1. apply bind_ok in E1 as [_ [_ E1]]. apply bind_ok in E1 as [l [E1 E2]]. injection E2 as <-.
  rewrite (available_power_unit _ f p s2 u2 vgap rn zt (RtoC (sqrt (8 * w * (Re zt * rn)) / vgap))); simpl; auto; [|now apply get2_set2 in E1|lra].
  f_equal. f_equal. rewrite <- RtoC_mult, Cmod_R.
  replace (sqrt (8 * w * (Re zt * rn)) / vgap * vgap) with (sqrt (8 * w * (Re zt * rn))) by (now field).
  rewrite Rabs_pos_eq by apply sqrt_pos. unfold Re in *. 
  assert (S : sqrt (8 * w * (fst zt * rn)) * (sqrt (8 * w * (fst zt * rn)) * 1) = 8 * w * (fst zt * rn)).
  { rewrite Rmult_1_r. now apply sqrt_sqrt. }
  rewrite S. field. split; intros Z; rewrite Z in Hp; lra.
Qed.

Lemma power_round_trip c c' power f p s u vgap rn zt : names_punit s u ->
  c_vgap c = Some vgap -> vgap <> 0 -> c_rn c = Some rn -> get2 (c_zt c) f p = Ok zt -> 0 < Re zt * rn ->
  (is_dB u = false -> 0 <= power) -> set_available_power c power f p s = (c', Ok tt) ->
  available_power c' f p s = Ok (XFin power) /\
  (forall s2 u2, names_punit s2 u2 -> 0 < in_watts u power \/ is_dB u2 = false ->
     exists x, available_power c' f p s2 = Ok (XFin x) /\ in_watts u2 x = in_watts u power).
Proof.
  intros Hu Hv Hv0 Hr Hz Hp Hw Hs.
  assert (W : 0 <= in_watts u power).
  { destruct (is_dB u) eqn:D; [left; now apply in_watts_pos|]. specialize (Hw eq_refl). destruct u; try discriminate; simpl; lra. }
  pose proof (set_power_result c c' power f p s u vgap rn zt Hu Hv Hv0 Hr Hz Hp W Hs) as K. split.
  - rewrite (K s u Hu). f_equal. now apply read_in_same.
  - intros s2 u2 Hu2 H2. rewrite (K s2 u2 Hu2). destruct (read_in_other u2 (in_watts u power) H2) as [x [E1 E2]]. exists x. now rewrite E1.
Qed.

(** set_available_power succeeds on a writeable circuit with the parameters set. *)
Lemma put_vt_succeeds c f p v row x : w_vt c = true -> pyget (c_vt c) f = Ok row -> pyget row p = Ok x -> exists c', put_vt c f p v = Ok c'.
Proof.
  intros W H1 H2. unfold put_vt, set2. rewrite W, H1. cbn [guard bind]. apply pyget_ok in H1 as [j [Hj _]]. apply pyget_ok in H2 as [k [Hk _]].
  unfold pyset. rewrite (names_pyidx _ _ _ Hk). cbn [bind]. rewrite (names_pyidx _ _ _ Hj). cbn [bind]. eauto.
Qed.

Lemma set_power_succeeds c power f p s u vgap rn zt old : names_punit s u -> w_vt c = true ->
  c_vgap c = Some vgap -> c_rn c = Some rn -> get2 (c_zt c) f p = Ok zt -> zt <> RtoC 0 -> get2 (c_vt c) f p = Ok old ->
  exists c', set_available_power c power f p s = (c', Ok tt).
Proof.
  intros Hu W Hv Hr Hz Hn Ht. unfold set_available_power. rewrite Hv, Hr, Hz. cbn [bind].
  destruct (Reqb_spec (Cmod zt) 0) as [E|E]; [exfalso; apply Hn; now apply Cmod_eq_0|].
  rewrite (to_watts_unit s u) by assumption. cbn [bind]. unfold get2 in Ht. apply bind_ok in Ht as [row [H1 H2]].
  match goal with |- context [put_vt c f p ?v] => destruct (put_vt_succeeds c f p v row old W H1 H2) as [c' ->] end. eexists; reflexivity.
Qed.

Definition known_power_unit (s : string) : Prop := exists u, names_punit s u.

Lemma unknown_power_unit c power f p s : ~ known_power_unit s ->
  (forall v rn zt, c_vgap c = Some v -> c_rn c = Some rn -> get2 (c_zt c) f p = Ok zt -> zt <> RtoC 0 ->
     set_available_power c power f p s = (c, Err ValueError)) /\
  (forall v rn zt vt, c_vgap c = Some v -> c_rn c = Some rn -> get2 (c_zt c) f p = Ok zt -> get2 (c_vt c) f p = Ok vt ->
     available_power c f p s = Err ValueError).
Proof.
  intros K.
  assert (N : forall u, (lower s =? lower (punit_name u))%string = false).
  { intros u. apply String.eqb_neq. intros E. apply K. exists u. now apply circuit_case. }
  assert (N1 : (lower s =? "w")%string = false) by exact (N UW).
  assert (N2 : (lower s =? "mw")%string = false) by exact (N UmW).
  assert (N3 : (lower s =? "uw")%string = false) by exact (N UuW).
  assert (N4 : (lower s =? "nw")%string = false) by exact (N UnW).
  assert (N5 : (lower s =? "pw")%string = false) by exact (N UpW).
  assert (N6 : (lower s =? "fw")%string = false) by exact (N UfW).
  assert (N7 : (lower s =? "dbm")%string = false) by exact (N UdBm).
  assert (N8 : (lower s =? "dbw")%string = false) by exact (N UdBW).
  split.
  - intros v rn zt Hv Hr Hz Hn. unfold set_available_power. rewrite Hv, Hr, Hz. cbn [bind].
    destruct (Reqb_spec (Cmod zt) 0) as [E|E]; [exfalso; apply Hn; now apply Cmod_eq_0|].
    unfold to_watts. cbv zeta. now rewrite N1, N2, N3, N4, N5, N6, N7, N8.
  - intros v rn zt vt Hv Hr Hz Ht. unfold available_power. rewrite Hv, Hr, Hz, Ht. cbn [bind]. cbv zeta.
    now rewrite N1, N2, N3, N4, N5, N6, N7, N8.
Qed.

(** ** C23: frequency units *)
Lemma freq_of_unit h e c fgap vgap s u x : names_funit s u -> c_fgap c = Some fgap -> c_vgap c = Some vgap ->
  h <> 0 -> e <> 0 -> fgap <> 0 -> vgap = fgap * h / e -> freq_of c x s = Some (in_hertz h e fgap u x / fgap).
Proof.
  intros Hu Hf Hv Hh He H0 Hc. unfold freq_of. rewrite Hf, Hv. unfold names_funit in Hu. apply circuit_case in Hu. rewrite Hu. cbv zeta.
  destruct (Reqb_spec fgap 0); [contradiction|].
  destruct (Reqb_spec vgap 0) as [E|E].
  { exfalso. rewrite Hc in E. unfold Rdiv in E. apply Rmult_integral in E. destruct E as [E|E].
    - apply Rmult_integral in E. tauto.
    - apply Rinv_neq_0_compat in He. contradiction. }
  destruct u; cbn [lower lower_ascii funit_name in_hertz]; simpl; f_equal; try subst vgap; field; auto.
Qed.

Lemma freq_units h e c fgap vgap s u x f : names_funit s u -> c_fgap c = Some fgap -> c_vgap c = Some vgap ->
  h <> 0 -> e <> 0 -> fgap <> 0 -> vgap = fgap * h / e ->
  set_freq c x f s = done c (put_freq c f (in_hertz h e fgap u x / fgap)).
Proof.
  intros Hu Hf Hv Hh He H0 Hc. destruct (set_freq_eq c x f s) as [[y [E1 E2]]|[er [E1 E2]]];
  rewrite (freq_of_unit h e c fgap vgap s u x) in E1 by assumption; [|discriminate]. injection E1 as <-. exact E2.
Qed.

(** ** C28: drive level *)
Lemma alpha_drive c c' alpha f p zj zt freq : set_alpha c alpha f p zj = (c', Ok tt) ->
  get2 (c_zt c) f p = Ok zt -> pyget (c_freq c) f = Ok freq -> zj <> RtoC 0 -> Cplus zj zt <> RtoC 0 ->
  exists vt, get2 (c_vt c') f p = Ok (Some vt) /\ Cdiv (Cmult vt zj) (Cplus zj zt) = RtoC (alpha * freq).
Proof.
  intros H Hz Hf Hj Hs. unfold set_alpha in H. rewrite Hz in H. cbn [bind] in H. destruct (Reqb_spec (Cmod zt) 0) as [E|E]; [discriminate|].
  rewrite Hf in H. cbn [bind] in H. destruct (Reqb_spec freq 0) as [E'|E']; [discriminate|].
  destruct (Reqb_spec (Cmod zj) 0) as [E''|_]; [exfalso; apply Hj; now apply Cmod_eq_0|].
  apply done_cases in H as [[y [E1 [-> _]]]|[er [_ [_ D]]]]; [|discriminate].
  unfold put_vt in E1. apply bind_ok in E1 as [_ [_ E1]]. apply bind_ok in E1 as [l [E1 E2]]. injection E2 as <-.
  apply get2_set2 in E1. eexists. split; [exact E1|]. field. split; assumption.
Qed.
