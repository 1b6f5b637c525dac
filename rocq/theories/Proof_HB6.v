(** The statements of Properties_HB.v from the lemmas about calls. *)
From Coq Require Import List ZArith Lia Bool Arith Reals Lra String.
From Coquelicot Require Import Complex.
From Verif Require Import Base Sums Round Bessel Model_QtCurrent Spec_QtCurrent Spec_QtApi Proof_QtApi2 Proof_QtWit Model_Circuit Spec_Circuit Proof_Circuit Proof_Circuit2 Proof_CircuitWit
  Model_HB Spec_HB Proof_HB Proof_HB2 Proof_HB3 Proof_HB4 Proof_HB5 Proof_HBWit Proof_HBWit2.
Import ListNotations.
Open Scope C_scope.

Section Call.
Variable J : nat -> R -> R.
Variable inv : nat -> (nat -> nat -> R) -> option (nat -> nat -> R).
Variables (c : hcct) (resp : R -> C) (num_b : numb) (max_it : Z) (stop : R) (vj0 : option arr3) (damp : R) (zj : C).
Notation q := (h_q c).
Notation call mode := (harmonic_balance J inv c resp num_b max_it stop vj0 damp mode zj).
Notation after n := (corrections J (r_cct (call "x")) resp num_b damp n (start c vj0 zj)).

Lemma converged_balanced v it : simulates c num_b -> (0 <= max_it)%Z -> inverts inv -> r_ret (call "x") = Ok (RetX v it true) ->
  everywhere q (fun f p i => ~ undefined J (r_cct (call "x")) resp num_b v f p i) ->
  balanced J (r_cct (call "x")) resp num_b stop v.
Proof.
  intros Hs Hm Hi H. apply sim_parts in Hs. destruct Hs as [Ha [Hp [Hz Hw]]]. rewrite (cct_after J inv c resp num_b max_it stop vj0 damp zj "x" Hz Hw). 
  now apply (flag_converged J inv c resp num_b max_it stop vj0 damp zj v it).
Qed.
Lemma converged_last v it : simulates c num_b -> (0 <= max_it)%Z -> inverts inv -> r_ret (call "x") = Ok (RetX v it true) ->
  forall i, (i < q_npts q)%nat -> let f := q_num_f q in let p := q_num_p q in
  ~ undefined J (r_cct (call "x")) resp num_b v f p i /\
  (Cmod (residual_at J (r_cct (call "x")) resp num_b v f p i) <= stop * Cmod (v f p i))%R.
Proof.
  intros Hs Hm Hi H. apply sim_parts in Hs. destruct Hs as [Ha [Hp [Hz Hw]]]. rewrite (cct_after J inv c resp num_b max_it stop vj0 damp zj "x" Hz Hw). 
  now apply (flag_converged J inv c resp num_b max_it stop vj0 damp zj v it).
Qed.
Lemma undefined_last v it flag i : simulates c num_b -> (0 <= max_it)%Z -> inverts inv -> r_ret (call "x") = Ok (RetX v it flag) -> (i < q_npts q)%nat ->
  undefined J (r_cct (call "x")) resp num_b v (q_num_f q) (q_num_p q) i -> flag = false.
Proof.
  intros Hs Hm Hi H Hip U. destruct flag; [|reflexivity]. exfalso. now apply (converged_last v it Hs Hm Hi H i Hip).
Qed.

Lemma iteration_count v it flag : simulates c num_b -> (0 <= max_it)%Z -> inverts inv -> r_ret (call "x") = Ok (RetX v it flag) ->
  (0 <= it <= max_it)%Z /\ (flag = true <-> (it < max_it)%Z) /\
  (after (Z.to_nat it) v \/
   (it = max_it /\ after (Z.to_nat max_it + 1)%nat v /\
    exists u i, after (Z.to_nat max_it) u /\ (i < q_npts q)%nat /\ undefined J (r_cct (call "x")) resp num_b u (q_num_f q) (q_num_p q) i)).
Proof.
  intros Hs Hm Hi H. apply sim_parts in Hs. destruct Hs as [Ha [Hp [Hz Hw]]]. rewrite (cct_after J inv c resp num_b max_it stop vj0 damp zj "x" Hz Hw). 
  destruct (iterations J inv c resp num_b max_it stop vj0 damp zj v it flag Ha Hp Hz Hm Hi H) as [A [B C]]. auto.
Qed.

Lemma affine_exact v it flag f p i : damp = 1%R -> simulates c num_b -> (0 <= max_it)%Z -> inverts inv ->
  signal q f p -> (i < q_npts q)%nat -> affine_row J c resp num_b f p i -> (1 <= it)%Z ->
  r_ret (call "x") = Ok (RetX v it flag) ->
  residual_at J (r_cct (call "x")) resp num_b v f p i = RtoC 0.
Proof.
  intros Hd Hs Hm Hinv Hsig Hi Haff Hit H.
  destruct (affine_call J inv c resp num_b max_it stop vj0 damp zj v it flag f p i Hs Hm Hinv Hsig Hi Haff H) as [n [Hn E]].
  rewrite E, Hd. replace (1 - 1)%R with 0%R by ring. rewrite pow_i by lia. ring.
Qed.

Lemma mask_meets v mask : let meets u i := forall f p, signal q f p -> u f p i <> RtoC 0 /\
    (Cmod (residual_at J (r_cct (call "m")) resp num_b u f p i) < stop * Cmod (u f p i))%R in
  simulates c num_b -> (0 <= max_it)%Z -> inverts inv -> r_ret (call "m") = Ok (RetM v mask) ->
  (forall i, (i < q_npts q)%nat -> mask i = true <-> meets v i) \/
  (exists u, corrections J (r_cct (call "m")) resp num_b damp (Z.to_nat max_it) (start c vj0 zj) u /\
     corrected J (r_cct (call "m")) resp num_b damp u v /\
     (forall i, (i < q_npts q)%nat -> mask i = true <-> meets u i) /\
     exists i, (i < q_npts q)%nat /\ undefined J (r_cct (call "m")) resp num_b u (q_num_f q) (q_num_p q) i).
Proof.
  intros meets Hs Hm Hi H. unfold meets. clear meets. apply sim_parts in Hs. destruct Hs as [Ha [Hp [Hz Hw]]]. rewrite (cct_after J inv c resp num_b max_it stop vj0 damp zj "m" Hz Hw).
  destruct (mask_sound J inv c resp num_b max_it stop vj0 damp zj v mask Ha Hp Hz Hm Hi H) as [A|[u [A [B [C D]]]]]; [now left|].
  right. exists u. auto.
Qed.
End Call.

Lemma affine_exact' J inv c resp num_b max_it stop vj0 zj v it flag f p i : 
  let call := harmonic_balance J inv c resp num_b max_it stop vj0 1 "x" zj in
  simulates c num_b -> (0 <= max_it)%Z -> inverts inv ->
  signal (h_q c) f p -> (i < q_npts (h_q c))%nat -> affine_row J c resp num_b f p i -> (1 <= it)%Z ->
  r_ret call = Ok (RetX v it flag) -> residual_at J (r_cct call) resp num_b v f p i = RtoC 0.
Proof. intros call. now apply affine_exact. Qed.

Lemma met_target_ends J inv c resp num_b max_it stop (g : arr3) damp mode zj :
  let call := harmonic_balance J inv c resp num_b max_it stop (Some g) damp mode zj in
  simulates c num_b -> (0 <= max_it)%Z -> (0 <= stop)%R ->
  everywhere (h_q c) (fun f p i => g f p i <> RtoC 0) -> balanced J (r_cct call) resp num_b stop g ->
  mode = "x"%string ->
  exists v, r_ret call = Ok (RetX v 0 (0 <? max_it)%Z) /\ agree (h_q c) g v.
Proof.
  intros call Hs Hm Hst Hnz Hb ->. assert (Hs' := Hs). apply sim_parts in Hs'. destruct Hs' as [Ha [Hp [Hz Hw]]]. unfold call in *.
  rewrite cct_after in Hb by assumption.
  destruct (hb_immediate J inv c resp num_b max_it stop g damp "x" zj Hs Hm Hst Hnz Hb) as [v [o [A [I [W [_ [R _]]]]]]].
  exists v. split; [|assumption]. rewrite R. unfold ret_of. cbn [String.eqb Ascii.eqb Bool.eqb]. rewrite I. do 2 f_equal.
  destruct (Z.eqb_spec 0 max_it), (Z.ltb_spec 0 max_it); try reflexivity; lia.
Qed.

Lemma converges J inv : exists c num_b g v it,
  simulates c num_b /\
  r_ret (harmonic_balance J inv c no_resp num_b 5 (/ 10 ^ 3) (Some g) 1 "x" (RtoC 1)) = Ok (RetX v it true) /\
  everywhere (h_q c) (fun f p i => ~ undefined J (r_cct (harmonic_balance J inv c no_resp num_b 5 (/ 10 ^ 3) (Some g) 1 "x" (RtoC 1))) no_resp num_b v f p i).
Proof.
  set (c := w1 (RtoC 1) (RtoC 1)). set (g := (fun _ _ _ => RtoC 1) : arr3).
  assert (Hs : simulates c (NbInt 1)) by (apply w1_simulates, one_neq0). pose proof (sim_parts c (NbInt 1) Hs) as [Ha [Hp [Hz Hw]]].
  assert (Hnz : everywhere (h_q c) (fun f p i => g f p i <> RtoC 0)) by (intros f p i _ _; apply one_neq0).
  destruct (met_target_ends J inv c no_resp (NbInt 1) 5 (/ 10 ^ 3) g 1 "x" (RtoC 1) Hs ltac:(lia) ltac:(lra) Hnz) as [v [R A]]; [|reflexivity|].
  - rewrite cct_after by assumption. intros f p i Hsig Hi. apply w1_signal in Hsig. destruct Hsig as [-> ->]. cbn in Hi. assert (i = 0%nat) by lia. subst i.
    unfold c. rewrite w1_residual, (source_big _ big_1). unfold g. replace (RtoC 1 - RtoC 1) with (RtoC 0) by ring. rewrite Cmod_0, Cmod_1. lra.
  - exists c, (NbInt 1), g, v, 0%Z. split; [assumption|]. split; [exact R|]. intros f p i Hsig Hi [U _]. rewrite <- (A f p i Hsig Hi) in U. now apply one_neq0.
Qed.

Lemma undefined_converged inv : exists c resp num_b g v it f p i,
  simulates c num_b /\
  let call := harmonic_balance besselJ inv c resp num_b 10 (/ 10 ^ 3) (Some g) 1 "x" (RtoC 1) in
  signal (h_q c) f p /\ (i < q_npts (h_q c))%nat /\ undefined besselJ (r_cct call) resp num_b v f p i /\
  r_ret call = Ok (RetX v it true).
Proof.
  destruct (nan_swallowed inv) as [c [resp [num_b [g [v [it [Hs [R [U [S [N _]]]]]]]]]]].
  exists c, resp, num_b, g, v, it, 1%nat, 1%nat, 0%nat. split; [assumption|]. cbv zeta. split; [assumption|]. split; [lia|]. auto.
Qed.

Lemma mode_ignored J inv : exists c num_b v v',
  args_ok (h_q c) num_b /\ h_wvt c = true /\
  r_ret (harmonic_balance J inv c no_resp num_b 10 (/ 10 ^ 3) None 1 "x" (RtoC 1)) = Ok (RetV v) /\
  r_ret (harmonic_balance J inv c no_resp num_b 10 (/ 10 ^ 3) None 1 "m" (RtoC 1)) = Ok (RetV v').
Proof.
  set (c := w1 (RtoC 1) (RtoC 0)). exists c, (NbInt 1).
  assert (Z : forall f p, (f <= q_num_f (h_q c))%nat -> (p <= q_num_p (h_q c))%nat -> h_zt c f p = RtoC 0).
  { intros f p _ _. cbn. now destruct (_ && _). }
  destruct (no_impedance_at_all J inv c no_resp (NbInt 1) 10 (/ 10 ^ 3) None 1 (RtoC 1) "x" Z) as [v [E _]].
  destruct (no_impedance_at_all J inv c no_resp (NbInt 1) 10 (/ 10 ^ 3) None 1 (RtoC 1) "m" Z) as [v' [E' _]].
  exists v, v'. split; [apply w1_args|]. auto.
Qed.

Lemma locked_refused_at J inv cc resp num_b max_it stop vj0 damp mode zj f p :
  (f <= c_num_f cc)%nat -> (p <= c_num_p cc)%nat -> h_zt (of_circ cc) f p <> RtoC 0 ->
  r_ret (harmonic_balance J inv (of_circ (lock cc)) resp num_b max_it stop vj0 damp mode zj) = Err ValueError.
Proof. intros Hf Hp Hz. apply locked_refused. exists f, p. auto. Qed.

Lemma built_circuit : exists cc cc', init 1 2 (PInt 1) (PInt 1) 0 2 (PInt 5) None (Some (28 / 10000)%R) (Some 10%R) "ex"%string = Ok cc /\
  cc' = with_zt cc [[RtoC 0; RtoC 0]; [RtoC 0; RtoC 1]] /\ w_vt cc' = true /\
  (1 <= c_num_f cc')%nat /\ (1 <= c_num_p cc')%nat /\ h_zt (of_circ cc') 1%nat 1%nat <> RtoC 0.
Proof.
  destruct (proj2 (init_ok_iff 1 2 (PInt 1) (PInt 1) 0 2 (PInt 5) None (Some (28 / 10000)%R) (Some 10%R) "ex"%string)) as [c E].
  { repeat split; try (eexists; split; [reflexivity|lia]); try lra. intros [_ K]. injection K. lra. }
  destruct (new_circuit 1 2 1%Z 1%Z 0 2 5%Z None (Some (28 / 10000)%R) (Some 10%R) "ex"%string c E) as [A [B [_ [_ [_ [_ [[_ [W _]] _]]]]]]].
  exists c. eexists. split; [exact E|]. split; [reflexivity|]. split; [exact W|]. cbn [c_num_f c_num_p with_zt]. rewrite A, B.
  split; [simpl; lia|]. split; [simpl; lia|]. cbn. apply one_neq0.
Qed.

Lemma one_correction_call J inv : inverts inv -> exists v,
  r_ret (harmonic_balance J inv (w1 (RtoC 1) (RtoC 1)) no_resp (NbInt 1) 1 (/ 10 ^ 3) (Some (fun _ _ _ => RtoC 5)) 1 "x" (RtoC 1)) = Ok (RetX v 1 false) /\
  v 1%nat 1%nat 0%nat = RtoC 1.
Proof.
  intros Hinv. destruct (one_correction J inv Hinv) as [v [o [rm [ER [Run V]]]]].
  set (c := w1 (RtoC 1) (RtoC 1)) in *. set (g := (fun _ _ _ => RtoC 5) : arr3).
  assert (Hs : simulates c (NbInt 1)) by (apply w1_simulates, one_neq0). pose proof (sim_parts c (NbInt 1) Hs) as [Ha [Hp [Hz Hw]]].
  destruct (hb_start J inv c no_resp (NbInt 1) 1 (/ 10 ^ 3) g 1 "x" (RtoC 1) rm _ _ Hz Hw ER Run) as [S1 _].
  exists (unflat 1 v). split; [|exact V]. unfold ret_of in S1. cbn [String.eqb Ascii.eqb Bool.eqb] in S1.
  destruct (iteration_count J inv c no_resp (NbInt 1) 1 (/ 10 ^ 3) (Some g) 1 (RtoC 1) _ _ _ Hs ltac:(lia) Hinv S1) as [B [_ C]].
  assert (I : l_iter o = 1%Z).
  { destruct C as [C|[C _]]; [|assumption]. assert (D : (l_iter o = 0 \/ l_iter o = 1)%Z) by lia. destruct D as [D|D]; [|assumption]. rewrite D in C.
    exfalso. inversion C as [? ? Ag|]; subst. specialize (Ag 1%nat 1%nat 0%nat). cbv beta in Ag. 
    assert (X : start c (Some g) (RtoC 1) 1%nat 1%nat 0%nat = v 0%nat 0%nat).
    { apply Ag; [|rewrite cct_after by assumption; cbn; lia]. rewrite cct_after by assumption. split; cbn; lia. }
    rewrite V in X. apply (f_equal fst) in X. simpl in X. lra. }
  rewrite I in S1. exact S1.
Qed.

Lemma own_current J c resp num_b rm v k f p i :
  args_ok (h_q c) num_b -> interpolate_respfn (h_q c) resp num_b = Ok rm ->
  k_to_fp k (q_num_p (h_q c)) = (INR f, p) -> signal (h_q c) f p -> (i < q_npts (h_q c))%nat ->
  exists ij, qt_current_for_hb J (h_q c) resp num_b (Some rm) v = Ok ij /\
    ij k i = current_at J (h_q c) resp num_b (unflat (q_num_p (h_q c)) v) f p i /\
    unflat (q_num_p (h_q c)) v f p i = v k i /\
    flat2 (q_num_p (h_q c)) (h_vt c) k = h_vt c f p /\ flat2 (q_num_p (h_q c)) (h_zt c) k = h_zt c f p.
Proof.
  intros Ha ER Ek [Hf Hp] Hi. assert (HP : (1 <= q_num_p (h_q c))%nat) by lia. rewrite k_to_fp_spec in Ek by assumption. injection Ek as E1 E2. apply INR_eq in E1.
  assert (K : sig_k (q_num_p (h_q c)) f p = k) by (rewrite <- E1, <- E2; now apply sig_fp_k).
  assert (B : (k < q_num_f (h_q c) * q_num_p (h_q c))%nat) by (rewrite <- K; now apply sig_k_bound).
  destruct (qt_for_hb J (h_q c) resp num_b rm v Ha ER) as [ij [E H]]. exists ij. split; [assumption|]. split; [rewrite H by assumption; now rewrite E1, E2|].
  split; [rewrite unflat_sig by lia; now rewrite K|]. unfold flat2. now rewrite E1, E2.
Qed.

Lemma k_to_fp_5_3 : k_to_fp 5 3 = (INR 2, 3%nat).
Proof. rewrite k_to_fp_spec by lia. reflexivity. Qed.
