(** Consequences and concrete cases for the circuit properties. *)
From Coq Require Import List ZArith Bool Ascii String Reals Lia Lra.
From Coquelicot Require Import Complex.
From Verif Require Import Base Round Model_QtCurrent Model_Circuit Model_CircuitFile Spec_Circuit Proof_Case Proof_Circuit Proof_Circuit2 Proof_CircuitFile.
Import ListNotations.
Open Scope R_scope.

Lemma new_circuit h e nf np vb_min vb_max n fgap vgap rn name c :
  init h e (PInt nf) (PInt np) vb_min vb_max (PInt n) fgap vgap rn name = Ok c ->
  c_num_f c = Z.to_nat nf /\ c_num_p c = Z.to_nat np /\ c_npts c = Z.to_nat n /\ c_name c = name /\ c_rn c = rn /\
  well_shaped c /\ writeable c /\
  (forall f, (f <= c_num_f c)%nat -> nth_error (c_freq c) f = Some 0) /\
  (forall f p, (f <= c_num_f c)%nat -> (p <= c_num_p c)%nat ->
     cell (c_vt c) f p = Some (Some (RtoC 0)) /\ cell (c_zt c) f p = Some (RtoC 0) /\ cell (c_comment c) f p = Some ""%string).
Proof. intros H. apply init_fields in H. tauto. Qed.

Lemma init_args h e num_f num_p vb_min vb_max n fgap vgap rn name c : init h e num_f num_p vb_min vb_max n fgap vgap rn name = Ok c ->
  exists a b k, num_f = PInt a /\ num_p = PInt b /\ n = PInt k.
Proof.
  intros H. assert (G : good_args num_f num_p vb_min vb_max n vgap rn) by (eapply init_ok_iff; eauto).
  destruct G as [[a [-> _]] [[b [-> _]] [[k [-> _]] _]]]. eauto 6.
Qed.

Lemma gap_consistent h e num_f num_p vb_min vb_max n fgap vgap rn name c :
  e <> 0 -> h <> 0 ->
  init h e num_f num_p vb_min vb_max n fgap vgap rn name = Ok c ->
  (forall f, fgap = Some f -> c_fgap c = Some f) /\ (forall v, vgap = Some v -> c_vgap c = Some v) /\
  (fgap = None \/ vgap = None ->
   match c_vgap c, c_fgap c with Some v, Some f => v = f * h / e | None, None => fgap = None /\ vgap = None | _, _ => False end).
Proof.
  intros He Hh H. split; [|split; [|exact (init_gap h e _ _ _ _ _ _ _ _ _ _ He Hh H)]].
  - intros f ->. destruct (init_args _ _ _ _ _ _ _ _ _ _ _ _ H) as [a [b [k [-> [-> ->]]]]]. apply init_fields in H. destruct H as (_&_&_&_&_&_&_&_&_&_&_&F&_). exact F.
  - intros v ->. destruct (init_args _ _ _ _ _ _ _ _ _ _ _ _ H) as [a [b [k [-> [-> ->]]]]]. apply init_fields in H. destruct H as (_&_&_&_&_&_&_&_&_&_&F&_). exact F.
Qed.

Lemma run_shape os : forall c, well_shaped c ->
  well_shaped (fst (run c os)) /\ c_num_f (fst (run c os)) = c_num_f c /\ c_num_p (fst (run c os)) = c_num_p c /\
  c_npts (fst (run c os)) = c_npts c.
Proof.
  induction os as [|o os IH]; intros c W; [auto|]. rewrite run_cons_fst. destruct (exec c o) as [c' r] eqn:E. cbn [fst].
  apply exec_shape in E as (W'&E1&E2&E3); [|assumption]. destruct (IH c' W') as (A&B&C&D). rewrite B, C, D. auto.
Qed.

Lemma unknown_power_unit' c power f p s :
  (forall u, ~ names_punit s u) ->
  (forall v rn zt, c_vgap c = Some v -> c_rn c = Some rn -> get2 (c_zt c) f p = Ok zt -> zt <> RtoC 0 ->
     set_available_power c power f p s = (c, Err ValueError)) /\
  (forall v rn zt vt, c_vgap c = Some v -> c_rn c = Some rn -> get2 (c_zt c) f p = Ok zt -> get2 (c_vt c) f p = Ok vt ->
     available_power c f p s = Err ValueError).
Proof. intros H. apply unknown_power_unit. intros [u Hu]. exact (H u Hu). Qed.

Lemma freq_units_agree h e c fgap vgap s u x s2 u2 x2 f :
  names_funit s u -> names_funit s2 u2 -> c_fgap c = Some fgap -> c_vgap c = Some vgap -> h <> 0 -> e <> 0 -> fgap <> 0 -> vgap = fgap * h / e ->
  in_hertz h e fgap u x = in_hertz h e fgap u2 x2 ->
  set_freq c x f s = set_freq c x2 f s2.
Proof.
  intros H1 H2 Hf Hv Hh He H0 Hg E. rewrite (freq_units h e c fgap vgap s u), (freq_units h e c fgap vgap s2 u2) by assumption. now rewrite E.
Qed.

Lemma freq_norm c fgap s x f : names_funit s Unorm -> c_fgap c = Some fgap -> set_freq c x f s = done c (put_freq c f x).
Proof. unfold names_funit, set_freq. intros Hs ->. apply circuit_case in Hs. rewrite Hs. reflexivity. Qed.

Lemma freq_norm_refused h e num_f num_p vb_min vb_max n rn name c x f :
  init h e num_f num_p vb_min vb_max n None None rn name = Ok c ->
  set_freq c x f "norm" = (c, Err AssertionError).
Proof.
  intros H. destruct (init_args _ _ _ _ _ _ _ _ _ _ _ _ H) as [a [b [k [-> [-> ->]]]]]. apply init_fields in H. destruct H as (_&_&_&_&_&_&_&_&_&_&_&F&_).
  unfold set_freq. rewrite F. reflexivity.
Qed.

Lemma igap_given h e num_f num_p vb_min vb_max n fgap v r name c :
  init h e num_f num_p vb_min vb_max n fgap (Some v) (Some r) name = Ok c -> c_vgap c = Some v /\ c_igap c = Some (v / r).
Proof.
  intros H. destruct (init_args _ _ _ _ _ _ _ _ _ _ _ _ H) as [a [b [k [-> [-> ->]]]]]. apply init_fields in H.
  destruct H as (_&_&_&_&_&_&_&_&_&_&F&_&G). auto.
Qed.

Lemma igap_missing h e num_f num_p vb_min vb_max n f r name c :
  init h e num_f num_p vb_min vb_max n (Some f) None (Some r) name = Ok c ->
  c_vgap c = Some (f * h / e) /\ c_rn c = Some r /\ c_igap c = None.
Proof.
  intros H. destruct (init_args _ _ _ _ _ _ _ _ _ _ _ _ H) as [a [b [k [-> [-> ->]]]]]. apply init_fields in H.
  destruct H as (_&_&_&_&_&_&_&_&_&K&F&_&G). auto.
Qed.

Lemma as_if_never_locked c os rest : writeable c -> existsb is_unlock os = false ->
  run (fst (run c (Lock :: os ++ [Unlock]))) rest = run (fst (run c (filter is_set_name os))) rest.
Proof. intros W U. f_equal. rewrite lock_unlock_as_if by assumption. now rewrite app_nil_r. Qed.

Lemma round_trip h e c :
  well_shaped c -> (1 <= c_num_f c <= 4)%nat -> (1 <= c_num_p c)%nat ->
  exists t c', save_info c = Ok t /\ read_circuit h e t = Ok c' /\ rounded_copy c c'.
Proof. intros W H1 H2. destruct (read_saved h e c W H1 H2) as [t [c0 [c' (A&B&_&_&C)]]]. eauto. Qed.

Lemma round_dec_nearest d x : Rabs (round_dec d x - x) <= / 2 / 10 ^ d /\ exists n, round_dec d x = IZR n / 10 ^ d.
Proof. split; [apply round_dec_error|]. unfold round_dec. eauto. Qed.

Lemma bias_sweep h e nf np vb_min vb_max n fgap vgap rn name c :
  init h e (PInt nf) (PInt np) vb_min vb_max (PInt n) fgap vgap rn name = Ok c ->
  List.length (c_vb c) = Z.to_nat n /\ nth_error (c_vb c) 0 = Some vb_min /\
  ((2 <= n)%Z -> nth_error (c_vb c) (Z.to_nat n - 1) = Some vb_max) /\
  (exists d, 0 <= d /\ forall i x y, nth_error (c_vb c) i = Some x -> nth_error (c_vb c) (S i) = Some y -> y - x = d).
Proof.
  intros H. assert (G : good_args (PInt nf) (PInt np) vb_min vb_max (PInt n) vgap rn) by (eapply init_ok_iff; eauto).
  destruct G as (_&_&[k [[= <-] Hk]]&Hv&_). apply init_fields in H. destruct H as (_&_&_&_&_&_&_&_&V&_). rewrite V.
  destruct (linspace_props vb_min vb_max (Z.to_nat n) Hv) as (A&B&C&D); [lia|]. repeat split; try assumption. intros. apply C. lia.
Qed.

Lemma alpha_harmonic c c' alpha f (p : nat) zj zt freq :
  set_alpha c alpha f (Z.of_nat p) zj = (c', Ok tt) -> (1 <= p)%nat -> 0 <= alpha ->
  get2 (c_zt c) f (Z.of_nat p) = Ok zt -> pyget (c_freq c) f = Ok freq -> 0 < freq -> zj <> RtoC 0 -> Cplus zj zt <> RtoC 0 ->
  exists vt, get2 (c_vt c') f (Z.of_nat p) = Ok (Some vt) /\ Cmod (Cdiv (Cmult vt zj) (Cplus zj zt)) / (INR p * freq) = alpha / INR p.
Proof.
  intros H Hp Ha Hz Hf Hf0 Hj Hs. destruct (alpha_drive c c' alpha f (Z.of_nat p) zj zt freq H Hz Hf Hj Hs) as [vt [E1 E2]]. exists vt. split; [exact E1|].
  rewrite E2, Cmod_R, Rabs_pos_eq by (apply Rmult_le_pos; lra). assert (0 < INR p) by (apply lt_0_INR; lia). field. lra.
Qed.

Lemma alpha_fundamental c c' alpha f zj zt freq :
  set_alpha c alpha f 1 zj = (c', Ok tt) -> 0 <= alpha ->
  get2 (c_zt c) f 1 = Ok zt -> pyget (c_freq c) f = Ok freq -> 0 < freq -> zj <> RtoC 0 -> Cplus zj zt <> RtoC 0 ->
  exists vt, get2 (c_vt c') f 1 = Ok (Some vt) /\ Cmod (Cdiv (Cmult vt zj) (Cplus zj zt)) / (1 * freq) = alpha.
Proof.
  intros H Ha Hz Hf Hf0 Hj Hs. destruct (alpha_drive c c' alpha f 1 zj zt freq H Hz Hf Hj Hs) as [vt [E1 E2]]. exists vt. split; [exact E1|].
  rewrite E2, Cmod_R, Rabs_pos_eq by (apply Rmult_le_pos; lra). field. lra.
Qed.

Lemma vph_fails c : vph c = Err AttributeError. Proof. reflexivity. Qed.

(** ** Concrete cases *)
Definition ex_c : circ := {|
  c_name := "ex"; c_num_f := 2; c_num_p := 2; c_num_n := 4;
  c_fgap := Some (28 / 10000 * 2 / 1); c_vgap := Some (28 / 10000); c_igap := Some (28 / 10000 / 10); c_rn := Some 10;
  c_freq := [0; 35 / 100; 3 / 10];
  c_vt := repeat (repeat (Some (RtoC 0)) 3) 3; c_zt := repeat (repeat (RtoC (1 / 2)) 3) 3;
  c_npts := 5; c_vb := [0; 1 / 2; 1; 3 / 2; 2]; c_comment := repeat (repeat ""%string 3) 3;
  w_freq := true; w_vt := true; w_zt := true; w_vb := true |}.

Lemma ex_init : exists c, init 1 2 (PInt 2) (PInt 2) 0 2 (PInt 5) None (Some (28 / 10000)) (Some 10) "ex" = Ok c /\
  c_fgap c = Some (28 / 10000 * 2 / 1) /\ c_igap c = Some (28 / 10000 / 10).
Proof.
  destruct (proj2 (init_ok_iff 1 2 (PInt 2) (PInt 2) 0 2 (PInt 5) None (Some (28 / 10000)) (Some 10) "ex")) as [c E].
  { repeat split; try (eexists; split; [reflexivity|lia]); try lra. intros [_ K]. injection K. lra. }
  exists c. split; [exact E|]. apply init_fields in E. destruct E as (_&_&_&_&_&_&_&_&_&_&_&F&G). auto.
Qed.
Lemma ex_nogap : exists c, init 1 2 (PInt 1) (PInt 1) 0 2 (PInt 5) None None None "" = Ok c.
Proof. apply init_ok_iff. repeat split; try (eexists; split; [reflexivity|lia]); try lra. intros [_ K]. discriminate. Qed.
Lemma ex_fgap : exists c, init 1 2 (PInt 1) (PInt 1) 0 2 (PInt 5) (Some 700) None (Some 10) "" = Ok c.
Proof. apply init_ok_iff. repeat split; try (eexists; split; [reflexivity|lia]); try lra. intros [K _]. congruence. Qed.

Lemma ex_units : names_punit "DBM" UdBm /\ names_punit "dbm" UdBm /\ names_punit "Mw" UmW /\ (forall u, ~ names_punit "dBmW" u).
Proof.
  unfold names_punit. split; [now apply circuit_case|]. split; [now apply circuit_case|]. split; [now apply circuit_case|].
  intros u H. apply circuit_case in H. destruct u; discriminate.
Qed.

Lemma ex_power : exists c', set_available_power ex_c (-30) 1 2 "DBM" = (c', Ok tt) /\ available_power c' 1 2 "dBm" = Ok (XFin (-30)).
Proof.
  assert (Z : RtoC (1 / 2) <> RtoC 0) by (intros K; injection K; lra).
  assert (U : names_punit "DBM" UdBm) by (apply circuit_case; reflexivity).
  destruct (set_power_succeeds ex_c (-30) 1 2 "DBM" UdBm (28 / 10000) 10 (RtoC (1 / 2)) (Some (RtoC 0))) as [c' E]; try exact U; try reflexivity; try assumption.
  exists c'. split; [exact E|]. change (available_power c' 1 2 "dBm") with (available_power c' 1 2 "DBM").
  apply (power_round_trip ex_c c' (-30) 1 2 "DBM" UdBm (28 / 10000) 10 (RtoC (1 / 2))); try exact U; try reflexivity; try assumption.
  - lra.
  - simpl. lra.
  - discriminate.
Qed.

Lemma ex_name : (exists c', set_name ex_c "LO" (-1) 1 = (c', Ok tt) /\ cell (c_comment c') 2 1 = Some "LO"%string) /\
  set_name ex_c "LO" 3 1 = (ex_c, Err IndexError).
Proof. split; [|reflexivity]. eexists. split; reflexivity. Qed.

Lemma ex_freq : exists c', set_freq ex_c (14 / 10) 1 "mV" = (c', Ok tt) /\ nth_error (c_freq c') 1 = Some (1 / 2).
Proof.
  rewrite (freq_units 1 2 ex_c (28 / 10000 * 2 / 1) (28 / 10000) "mV" UmV (14 / 10) 1); try reflexivity; try lra; [|apply circuit_case; reflexivity].
  eexists. split; [reflexivity|]. simpl. f_equal. field.
Qed.

Lemma ex_alpha : exists c', set_alpha ex_c (1 / 2) 2 2 (RtoC 1) = (c', Ok tt) /\
  get2 (c_zt ex_c) 2 2 = Ok (RtoC (1 / 2)) /\ pyget (c_freq ex_c) 2 = Ok (3 / 10).
Proof.
  unfold set_alpha. change (get2 (c_zt ex_c) 2 2) with (Ok (RtoC (1 / 2))). cbn [bind]. rewrite Cmod_R, Rabs_pos_eq by lra.
  destruct (Reqb_spec (1 / 2) 0); [exfalso; lra|]. change (pyget (c_freq ex_c) 2) with (Ok (3 / 10)). cbn [bind].
  destruct (Reqb_spec (3 / 10) 0); [exfalso; lra|]. eexists. split; [reflexivity|]. split; reflexivity.
Qed.

Lemma ex_saveable : well_shaped ex_c /\ finite_vt ex_c /\ (1 <= c_num_f ex_c <= 4)%nat /\ (1 <= c_num_p ex_c)%nat.
Proof.
  split; [|split; [|cbn; lia]].
  - unfold well_shaped. cbn [ex_c c_num_n c_num_f c_num_p c_freq c_vt c_zt c_comment c_vb c_npts]. repeat split; try reflexivity;
    intros row H; apply repeat_spec in H; subst; reflexivity.
  - intros f p H1 H2. cbn [ex_c c_num_f c_num_p] in *. exists (RtoC 0). unfold ex_c. cbn [c_vt]. apply cell_repeat; lia.
Qed.

Lemma initial_voltage c :
  List.length (initialize_vj c) = S (c_num_f c) /\
  forall f, (f <= c_num_f c)%nat -> exists rows, nth_error (initialize_vj c) f = Some rows /\ List.length rows = S (c_num_p c) /\
  forall p, (p <= c_num_p c)%nat -> exists vs, nth_error rows p = Some vs /\ List.length vs = c_npts c /\ forall v, In v vs -> v = RtoC 0.
Proof.
  unfold initialize_vj. split; [rewrite repeat_length; lia|]. intros f Hf. eexists. split; [apply nth_error_repeat; lia|]. split; [rewrite repeat_length; lia|].
  intros p Hp. eexists. split; [apply nth_error_repeat; lia|]. split; [apply repeat_length|]. intros v Hv. now apply repeat_spec in Hv.
Qed.

Lemma ex_undefined : exists c, well_shaped c /\ (1 <= c_num_f c <= 4)%nat /\ (1 <= c_num_p c)%nat /\ cell (c_vt c) 1 1 = Some None.
Proof.
  exists (with_vt ex_c (repeat (repeat None 3) 3)). split; [|split; [|split]]; try (cbn; lia); [|reflexivity].
  unfold well_shaped, with_vt. cbn [ex_c c_num_n c_num_f c_num_p c_freq c_vt c_zt c_comment c_vb c_npts]. repeat split; try reflexivity;
    intros row H; apply repeat_spec in H; subst; reflexivity.
Qed.
