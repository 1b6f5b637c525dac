(** What the messages of a run say. *)
From Coq Require Import List ZArith Lia Bool Arith Reals Lra String Permutation Sorted.
From Coquelicot Require Import Complex.
From Verif Require Import Base Sums Round Model_QtCurrent Spec_QtCurrent Spec_QtApi Model_Circuit Model_HB Model_Misc Model_Print Model_HBPrint Spec_HB Spec_HBPrint
  Proof_QtCurrent Proof_HB Proof_HB3 Proof_HB4 Proof_HB5 Proof_HBPrint.
Import ListNotations.
Local Notation length := List.length.
Open Scope list_scope.
Open Scope R_scope.

(** ** Marks in the output *)
Section Marks.
Variables num_n num_p npts : nat.
Variable qt : arr2 -> res arr2.
Variable inv : nat -> (nat -> nat -> R) -> option (nat -> nat -> R).
Variables vt zt : nat -> C.
Variables stop damp : R.
Variable max_it : Z.
Variable verbose : bool.
Variable call_time : R.
Notation np := (newton_p num_n num_p npts qt inv vt zt stop damp max_it verbose call_time).
Notation ijp := (inv_jacobian_p num_n npts qt inv vt zt verbose).

Definition mark (m : msg) : bool := match m with TargetMet | TargetMissed => true | _ => false end.
Lemma filter_none (l : list msg) : (forall m, In m l -> mark m = false) -> filter mark l = [].
Proof.
  induction l as [|a l IH]; intros H; [reflexivity|]. cbn. rewrite (H a (or_introl eq_refl)). apply IH. intros m Hm. apply H. now right.
Qed.
Lemma filter_signals err vj l : filter mark (map (signal_error num_p npts stop err vj) l) = [].
Proof.
  apply filter_none. intros m Hm. apply in_map_iff in Hm. destruct Hm as [k [<- _]]. unfold signal_error. destruct (k_to_fp k num_p). reflexivity.
Qed.
Lemma filter_bars l n : filter mark (map (fun q => Progress q n) l) = [].
Proof. apply filter_none. intros m Hm. apply in_map_iff in Hm. destruct Hm as [k [<- _]]. reflexivity. Qed.
Lemma filter_say b l : filter mark (say b l) = say b (filter mark l).
Proof. destruct b; reflexivity. Qed.

Lemma newton_marks its : forall v last v' o, l_why last = RanOut -> snd (np its v last) = (v', Ok o) ->
  filter mark (fst (np its v last)) = match l_why o with Converged => say verbose [TargetMet] | HitLimit => [TargetMissed] | RanOut => [] end.
Proof.
  induction its as [|it its IH]; intros v last v' o Hl; cbn [newton_p].
  - cbn [snd fst]. intros H. injection H as _ <-. rewrite Hl. reflexivity.
  - destruct (qt v) as [ij|e]; [|discriminate]. cbv zeta.
    match goal with |- context [say (verbose && (it =? 0)%Z) ?e ++ say verbose ?r] => set (out := say (verbose && (it =? 0)%Z) e ++ say verbose r) end.
    assert (O : filter mark out = []).
    { unfold out. rewrite filter_app, !filter_say. cbn [filter mark estimate]. rewrite filter_signals. destruct verbose; [destruct (it =? 0)%Z|]; reflexivity. }
    destruct (xle_r _ stop).
    { cbn [snd fst]. intros H. injection H as _ <-. rewrite filter_app, O, filter_say. reflexivity. }
    destruct (xgt_r _ stop && _).
    { cbn [snd fst]. intros H. injection H as _ <-. rewrite filter_app, O. reflexivity. }
    pose proof (inv_jacobian_out num_n npts qt inv vt zt verbose (residual vt zt ij v) v) as B.
    destruct (ijp (residual vt zt ij v) v) as [bs r]. cbn [snd fst] in B. destruct r as [js|e]; [|discriminate]. specialize (B js eq_refl).
    match goal with |- context [np its ?a ?b] => specialize (IH a b); destruct (np its a b) as [rest x] end. cbn [snd fst] in *. intros H.
    rewrite !filter_app, O, B, !filter_say, filter_bars. rewrite (IH v' o eq_refl H). destruct verbose; reflexivity.
Qed.

Lemma newton_quiet its : verbose = false -> forall v last, fst (np its v last) = [] \/ fst (np its v last) = [TargetMissed].
Proof.
  intros V. induction its as [|it its IH]; intros v last; cbn [newton_p]; [now left|]. destruct (qt v) as [ij|e]; [|now left]. cbv zeta. rewrite V. cbn [andb say app].
  destruct (xle_r _ stop); [now left|]. destruct (xgt_r _ stop && _); [now right|].
  assert (B : fst (inv_jacobian_p num_n npts qt inv vt zt false (residual vt zt ij v) v) = []).
  { clear. unfold inv_jacobian_p. assert (E : forall qs, fst (columns_p num_n qt vt zt false v qs) = []).
    { induction qs as [|q qs IH]; [reflexivity|]. cbn [columns_p]. match goal with |- context [match ?a with Ok _ => _ | Err _ => _ end] => destruct a end; [|reflexivity].
      destruct (columns_p num_n qt vt zt false v qs) as [o r]. cbn in *. now rewrite IH. }
    specialize (E (seq 0 num_n)). destruct (columns_p num_n qt vt zt false v (seq 0 num_n)) as [o r]. cbn in E. subst o. destruct r; reflexivity. }
  destruct (inv_jacobian_p num_n npts qt inv vt zt false (residual vt zt ij v) v) as [bs r]. cbn [fst] in B. subst bs. destruct r as [js|e]; [|now left].
  match goal with |- context [newton_p ?a ?b ?c ?d ?e ?f ?g ?h ?i ?j false ?l its ?m ?n] => specialize (IH m n) end. rewrite V in IH.
  match goal with |- context [newton_p ?a ?b ?c ?d ?e ?f ?g ?h ?i ?j false ?l its ?m ?n] => destruct (newton_p a b c d e f g h i j false l its m n) as [rest x] end.
  cbn [fst app] in *. exact IH.
Qed.
End Marks.
Lemma in_mark m l : mark m = true -> In m l <-> In m (filter mark l).
Proof. intros H. rewrite filter_In. tauto. Qed.

(** ** The call *)
Lemma hb_p_ok J inv verbose ct st c resp num_b max_it stop vj0 damp mode zj x : some_impedance c ->
  r_ret (snd (harmonic_balance_p J inv verbose ct st c resp num_b max_it stop vj0 damp mode zj)) = Ok x ->
  let q := h_q c in let P := q_num_p q in let n := (q_num_f q * P)%nat in
  exists g rm lines v o, agree q (start c vj0 zj) g /\ interpolate_respfn q resp num_b = Ok rm /\
    newton_p n P (q_npts q) (qt_current_for_hb J q resp num_b (Some rm)) inv (flat2 P (clamp_vt (h_vt c))) (flat2 P (h_zt c)) stop damp max_it verbose ct
      (zrange 0 (max_it + 1)) (flat3 P g) {| l_iter := 0; l_mask := None; l_why := RanOut |} = (lines, (v, Ok o)) /\
    ret_of mode max_it (unflat P v) o = Ok x /\
    fst (harmonic_balance_p J inv verbose ct st c resp num_b max_it stop vj0 damp mode zj) =
      say verbose [Running; Tones (q_num_f q) P; Calls (n * 2 + 1); MaxIt max_it] ++ lines ++
      say verbose (SimTime st :: (if (1 <=? l_iter o)%Z then [Iterations (l_iter o); TimePerIteration (st / IZR (l_iter o))] else [])).
Proof.
  intros Hz. apply all_zero_false in Hz. unfold harmonic_balance_p. rewrite Hz. destruct (h_wvt c) eqn:Ew; cbn [negb]; [|discriminate].
  set (vt := clamp_vt (h_vt c)).
  set (g := match vj0 with Some a => Some a | None => default_guess (h_q c) vt (h_zt c) zj end).
  assert (Hg : forall a, g = Some a -> agree (h_q c) (start c vj0 zj) a).
  { intros a Ea f p i [Hf Hp] Hi. unfold g in Ea. unfold start. destruct vj0 as [a0|].
    - injection Ea as <-. reflexivity.
    - unfold default_guess in Ea. destruct (forallb _ _); [|discriminate]. injection Ea as <-. unfold vt. rewrite clamp_source by lia. reflexivity. }
  destruct g as [a|] eqn:Eg; [|discriminate].
  destruct (interpolate_respfn (h_q c) resp num_b) as [rm|e] eqn:ER; [|discriminate]. cbv zeta.
  match goal with |- context [newton_p ?a ?b ?c ?d ?e ?f ?g ?h ?i ?j ?k ?l ?m ?n ?o] => destruct (newton_p a b c d e f g h i j k l m n o) as [lines [v r]] eqn:EN end.
  cbn [snd fst r_ret]. intros H. apply bind_ok in H. destruct H as [o [-> H]].
  exists a, rm, lines, v, o. split; [now apply Hg|]. split; [reflexivity|]. split; [exact EN|]. split; [exact H|]. destruct verbose; reflexivity.
Qed.

Lemma hb_quiet J inv ct st c resp num_b max_it stop vj0 damp mode zj :
  let out := fst (harmonic_balance_p J inv false ct st c resp num_b max_it stop vj0 damp mode zj) in out = [] \/ out = [TargetMissed].
Proof.
  unfold harmonic_balance_p. destruct (all_zero _ _ _); [now left|]. destruct (negb _); [now left|]. destruct (match vj0 with Some a => Some a | None => _ end) as [g|]; [|now left].
  destruct (interpolate_respfn _ _ _) as [rm|e]; [|now left]. cbv zeta.
  match goal with |- context [newton_p ?a ?b ?c ?d ?e ?f ?g ?h ?i ?j ?k ?l ?m ?n ?o] => pose proof (newton_quiet a b c d e f g h i j k l m eq_refl n o) as Q; destruct (newton_p a b c d e f g h i j k l m n o) as [lines [v r]] end.
  cbn [fst say app] in *. destruct r; rewrite app_nil_r; exact Q.
Qed.

(** ** Reports on the signals *)
Lemma list_prod_sig F P : (1 <= P)%nat -> list_prod (seq 1 F) (seq 1 P) = map (fun k => (sig_f P k, sig_p P k)) (seq 0 (F * P)).
Proof.
  intros HP. assert (E : list_prod (seq 1 F) (seq 1 P) = flat_map (fun f => map (pair f) (seq 1 P)) (seq 1 F)).
  { induction (seq 1 F) as [|a l IH]; [reflexivity|]. cbn. now rewrite IH. }
  apply nth_ext with (d := (0, 0)%nat) (d' := (0, 0)%nat).
  - rewrite prod_length, map_length, !seq_length. reflexivity.
  - intros k Hk. rewrite prod_length, !seq_length in Hk. rewrite E. rewrite (nth_error_nth _ _ _ (flat_map_nth pair P F HP k Hk)).
    symmetry. apply nth_error_nth. rewrite nth_error_map, (nth_error_nth' _ 0%nat) by (rewrite seq_length; exact Hk). rewrite seq_nth by exact Hk. reflexivity.
Qed.
Lemma filter_map_length {A B} (f : B -> bool) (g : A -> B) l : length (filter f (map g l)) = length (filter (fun x => f (g x)) l).
Proof. induction l as [|a l IH]; [reflexivity|]. cbn. destruct (f (g a)); cbn; now rewrite IH. Qed.
Lemma nth_map_seq {A} (g : nat -> A) n i d : (i < n)%nat -> nth i (map g (seq 0 n)) d = g i.
Proof. intros H. apply nth_error_nth. rewrite nth_error_map, (nth_error_nth' _ 0%nat) by (rewrite seq_length; exact H). rewrite seq_nth by exact H. reflexivity. Qed.

Section OneCircuit.
Variable J : nat -> R -> R.
Variable inv : nat -> (nat -> nat -> R) -> option (nat -> nat -> R).
Variables (c : hcct) (resp : R -> C) (num_b : numb) (rm : respmat).
Hypothesis Ha : args_ok (h_q c) num_b.
Hypothesis Hpts : (1 <= q_npts (h_q c))%nat.
Hypothesis ER : interpolate_respfn (h_q c) resp num_b = Ok rm.
Variables (stop damp : R) (max_it : Z) (ct : R).
Notation q := (h_q c).
Notation P := (q_num_p q).
Notation n := (q_num_f q * P)%nat.
Notation qt := (qt_current_for_hb J q resp num_b (Some rm)).
Notation vt2 := (flat2 P (clamp_vt (h_vt c))).
Notation zt2 := (flat2 P (h_zt c)).

Lemma signal_reported v ij k : qt v = Ok ij -> (k < n)%nat ->
  signal_report J (clamped c) resp num_b stop (unflat P v) (sig_f P k) (sig_p P k) (signal_error P (q_npts q) stop (residual vt2 zt2 ij v) v k).
Proof.
  intros Eq Hk. pose proof (HP1 c num_b Ha) as HP.
  set (err := residual vt2 zt2 ij v). set (rel := map (rel_error err v k) (seq 0 (q_npts q))).
  assert (NE : rel <> []) by (unfold rel; destruct (q_npts q); [lia|discriminate]).
  assert (EI : forall i, (i < q_npts q)%nat -> rel_error err v k i =
      xdiv (Cmod (residual_at J (clamped c) resp num_b (unflat P v) (sig_f P k) (sig_p P k) i)) (Cmod (unflat P v (sig_f P k) (sig_p P k) i))).
  { intros i Hi. unfold rel_error, err. rewrite (qt_residual J c resp num_b rm Ha ER v ij k i Eq Hk Hi), unflat_k by exact HP. reflexivity. }
  exists rel, (median rel), (npmax rel), (capped (median rel)), (capped (npmax rel)), (filter (fun i => xlt_r (rel_error err v k i) stop) (seq 0 (q_npts q))).
  split; [unfold rel; now rewrite map_length, seq_length|].
  split. { intros i Hi. unfold rel. rewrite nth_map_seq by exact Hi. rewrite EI by exact Hi. apply rel_is. }
  split; [now apply median_spec|]. split; [now apply npmax_largest|]. split; [apply capped_shown|]. split; [apply capped_shown|].
  split; [apply NoDup_filter, seq_NoDup|].
  split.
  { intros i. rewrite filter_In, in_seq. split.
    - intros [Hi H]. split; [cbn; lia|]. rewrite EI in H by (cbn in *; lia). apply xdiv_lt in H; [|apply Cmod_ge_0]. rewrite Cmod_0_iff in H. exact H.
    - intros [Hi H]. split; [cbn in *; lia|]. rewrite EI by exact Hi. apply xdiv_lt; [apply Cmod_ge_0|]. rewrite Cmod_0_iff. exact H. }
  unfold signal_error. rewrite k_to_fp_spec by exact HP. fold rel. rewrite Int_part_INR, Nat2Z.id. f_equal. unfold rel. rewrite filter_map_length. apply Rmult_comm.
Qed.

Lemma round_reported v ij it : qt v = Ok ij ->
  round_report J (clamped c) resp num_b stop (unflat P v) it (ErrorAfter it :: map (signal_error P (q_npts q) stop (residual vt2 zt2 ij v) v) (seq 0 n)).
Proof.
  intros Eq. eexists. split; [reflexivity|]. change (h_q (clamped c)) with q. rewrite list_prod_sig by exact (HP1 c num_b Ha).
  assert (G : forall l, (forall k, In k l -> (k < n)%nat) ->
    Forall2 (fun fp m => signal_report J (clamped c) resp num_b stop (unflat P v) (fst fp) (snd fp) m) (map (fun k => (sig_f P k, sig_p P k)) l)
      (map (signal_error P (q_npts q) stop (residual vt2 zt2 ij v) v) l)).
  { induction l as [|k l IH]; intros H; [constructor|]. cbn [map]. constructor; [|apply IH; intros; apply H; now right].
    cbn [fst snd]. apply signal_reported; [exact Eq|]. apply H. now left. }
  apply G. intros k Hk. apply in_seq in Hk. lia.
Qed.

Lemma rel_max_missed v ij : qt v = Ok ij -> xgt_r (rel_max n (q_npts q) vt2 zt2 ij v) stop = true -> missed J (clamped c) resp num_b stop (unflat P v).
Proof.
  intros Eq H. destruct (max_rel_gt _ _ _ _ _ (Hn1 c num_b Ha) H) as [k [i [Hk [Hi G]]]]. unfold rel_error in G. apply xdiv_gt in G.
  pose proof (qt_residual J c resp num_b rm Ha ER v ij k i Eq Hk Hi) as E. destruct (sig_range (q_num_f q) P k Hk) as [S1 S2].
  exists (sig_f P k), (sig_p P k), i. split; [now split|]. split; [exact Hi|]. unfold undefined. rewrite unflat_k by exact (HP1 c num_b Ha). 
  change (h_q (clamped c)) with q. rewrite <- E. exact G.
Qed.

Notation np := (newton_p n P (q_npts q) qt inv vt2 zt2 stop damp max_it true ct).
Hypothesis Hinv : inverts inv.

Lemma newton_transcript : forall k m v last v' o, (0 <= m <= max_it + 1)%Z -> (m = 0 -> 0 <= max_it)%Z -> Z.to_nat (max_it + 1 - m) = k -> (m = max_it + 1 -> l_iter last = max_it)%Z ->
  snd (np (zrange m (max_it + 1)) v last) = (v', Ok o) ->
  exists l, fst (np (zrange m (max_it + 1)) v last) = (if (m =? 0)%Z then estimate n max_it ct else []) ++ l /\
    transcript J (clamped c) resp num_b stop damp max_it m (unflat P v) l (unflat P v') (l_iter o).
Proof.
  induction k as [|k IH]; intros m v last v' o Hm H0 Hk Hl.
  - rewrite zrange_nil by lia. cbn [newton_p fst snd]. intros H. assert (Em : m = (max_it + 1)%Z) by lia.
    exists []. split; [destruct (m =? 0)%Z eqn:E; [apply Z.eqb_eq in E; lia|reflexivity]|]. 
    assert (v = v') by congruence. assert (last = o) by congruence. subst. rewrite (Hl eq_refl). constructor.
  - rewrite zrange_cons by lia. cbn [newton_p]. destruct (qt v) as [ij|e] eqn:Eq; [|discriminate]. cbv zeta. cbn [andb].
    pose proof (round_reported v ij m Eq) as RR.
    match goal with |- context [say true ?r] => change (say true r) with r end. set (rr := ErrorAfter m :: _) in *.
    replace (say (m =? 0)%Z (estimate n max_it ct)) with (if (m =? 0)%Z then estimate n max_it ct else []) by (destruct (m =? 0)%Z; reflexivity).
    set (est := if (m =? 0)%Z then estimate n max_it ct else []).
    change (max_rel_error n (q_npts q) (residual vt2 zt2 ij v) v) with (rel_max n (q_npts q) vt2 zt2 ij v).
    destruct (xle_r (rel_max n (q_npts q) vt2 zt2 ij v) stop) eqn:E1.
    { cbn [snd fst]. intros H. exists (rr ++ [TargetMet]). split; [symmetry; apply app_assoc|]. assert (v = v') by congruence. subst v'.
      assert (l_iter o = m) as -> by (assert (E : {| l_iter := m; l_mask := Some (finished_points n stop (residual vt2 zt2 ij v) v); l_why := Converged |} = o) by congruence; now rewrite <- E).
      destruct (rel_max_le J c resp num_b rm Ha ER v ij stop Hpts Eq E1) as [T1 T2]. apply T_met; [exact RR| |exact T2].
      intros [i [Hi U]]. now apply (T1 i Hi). }
    destruct (xgt_r (rel_max n (q_npts q) vt2 zt2 ij v) stop && (m =? max_it)%Z) eqn:E2.
    { cbn [snd fst]. intros H. apply andb_true_iff in E2. destruct E2 as [E2 E3]. apply Z.eqb_eq in E3. exists (rr ++ [TargetMissed]). split; [symmetry; apply app_assoc|].
      assert (v = v') by congruence. subst v'.
      assert (l_iter o = m) as -> by (assert (E : {| l_iter := m; l_mask := Some (finished_points n stop (residual vt2 zt2 ij v) v); l_why := HitLimit |} = o) by congruence; now rewrite <- E).
      rewrite E3 in *. apply T_missed; [exact RR|]. now apply rel_max_missed with ij. }
    pose proof (inv_jacobian_out n (q_npts q) qt inv vt2 zt2 true (residual vt2 zt2 ij v) v) as B.
    pose proof (inv_jacobian_erase n (q_npts q) qt inv vt2 zt2 true (residual vt2 zt2 ij v) v) as EJ.
    destruct (inv_jacobian_p n (q_npts q) qt inv vt2 zt2 true (residual vt2 zt2 ij v) v) as [bs r]. cbn [snd fst] in B, EJ. destruct r as [js|e]; [|discriminate]. specialize (B js eq_refl). cbn [say] in B.
    assert (Co : corrected J (clamped c) resp num_b damp (unflat P v) (unflat P (update n damp js (residual vt2 zt2 ij v) v))).
    { destruct Hinv as [Hi1 Hi2]. eapply mstep_corrected; [exact Ha|exact ER|exact Hi1|]. exists ij, js. split; [exact Eq|]. split; [now symmetry|reflexivity]. }
    match goal with |- context [np (zrange (m + 1) (max_it + 1)) ?a ?b] => specialize (IH (m + 1)%Z a b v' o ltac:(lia) ltac:(lia) ltac:(lia) ltac:(cbn; lia)); destruct (np (zrange (m + 1) (max_it + 1)) a b) as [rest x] end. 
    cbn [snd fst] in *. intros H. destruct (IH H) as [l1 [L1 T1]]. replace (m + 1 =? 0)%Z with false in L1 by (symmetry; apply Z.eqb_neq; lia). cbn [app] in L1. subst rest.
    exists (rr ++ bars (clamped c) ++ [Correcting] ++ l1). split; [rewrite B, <- app_assoc; reflexivity|].
    eapply T_again; [exact RR| |exact Co|exact T1].
    destruct (Z.eq_dec m max_it) as [Em|Em].
    + right. split; [exact Em|]. apply (rel_max_nan J c resp num_b rm Ha ER v ij Hpts Eq). apply x_trichotomy with stop; [exact E1|].
      destruct (xgt_r (rel_max n (q_npts q) vt2 zt2 ij v) stop); [|reflexivity]. apply Z.eqb_eq in Em. rewrite Em in E2. discriminate.
    + left. split; [lia|]. intros S0 [S1 S2]. rewrite (rel_max_le_back J c resp num_b rm Ha ER v ij stop Hpts S0 Eq S1 S2) in E1. discriminate.
Qed.
End OneCircuit.

Lemma hb_transcript J inv ct st c resp num_b max_it stop vj0 damp zj v it flag :
  let call := harmonic_balance_p J inv true ct st c resp num_b max_it stop vj0 damp "x" zj in
  simulates c num_b -> (0 <= max_it)%Z -> inverts inv -> r_ret (snd call) = Ok (RetX v it flag) ->
  exists v0 lines, agree (h_q c) (start c vj0 zj) v0 /\ transcript J (r_cct (snd call)) resp num_b stop damp max_it 0 v0 lines v it /\
    let n := (q_num_f (h_q c) * q_num_p (h_q c))%nat in let calls := (2 * n + 1)%nat in
    fst call = [Running; Tones (q_num_f (h_q c)) (q_num_p (h_q c)); Calls calls; MaxIt max_it;
                EstimatedTime; CallTime ct; IterationTime (ct * INR calls); MaxTime (ct * INR calls * IZR max_it)] ++
               lines ++ SimTime st :: (if (1 <=? it)%Z then [Iterations it; TimePerIteration (st / IZR it)] else []).
Proof.
  intros call [Ha [Hp [Hw Hz]]] Hm Hi H. assert (HC : r_cct (snd call) = clamped c).
  { unfold call in *. rewrite hb_erase in *. now apply hb_ok in H. }
  rewrite HC. clear HC. unfold call in *. clear call. destruct (hb_p_ok _ _ _ _ _ _ _ _ _ _ _ _ _ _ _ Hz H) as [g [rm [lines [w [o [Hg [ER [EN [Hx HO]]]]]]]]].
  apply ret_x in Hx. assert (v = unflat (q_num_p (h_q c)) w) as -> by congruence. assert (it = l_iter o) as -> by congruence.
  pose proof (newton_transcript J inv c resp num_b rm Ha Hp ER stop damp max_it ct Hi _ 0 (flat3 (q_num_p (h_q c)) g) {| l_iter := 0; l_mask := None; l_why := RanOut |} w o ltac:(lia) ltac:(lia) eq_refl ltac:(cbn; lia)) as T.
  rewrite EN in T. cbn [fst snd] in T. destruct (T eq_refl) as [l [L1 L2]]. exists (unflat (q_num_p (h_q c)) (flat3 (q_num_p (h_q c)) g)), l.
  split. { intros f p i [Hf Hp'] Hi'. rewrite unflat_flat by lia. now apply Hg; [split|]. }
  split; [exact L2|]. cbv zeta. rewrite HO, L1. cbn [Z.eqb]. unfold estimate. cbn [say]. rewrite (Nat.mul_comm _ 2). reflexivity.
Qed.

(** Which verdict is printed. *)
Lemma hb_marks J inv verbose ct st c resp num_b max_it stop vj0 damp zj v it flag :
  let call := harmonic_balance_p J inv verbose ct st c resp num_b max_it stop vj0 damp "x" zj in
  some_impedance c -> (0 <= max_it)%Z -> r_ret (snd call) = Ok (RetX v it flag) ->
  exists g rm w o, agree (h_q c) (start c vj0 zj) g /\ interpolate_respfn (h_q c) resp num_b = Ok rm /\
    let P := q_num_p (h_q c) in let n := (q_num_f (h_q c) * P)%nat in
    run_newton n (q_npts (h_q c)) (qt_current_for_hb J (h_q c) resp num_b (Some rm)) inv (flat2 P (clamp_vt (h_vt c))) (flat2 P (h_zt c)) stop damp max_it (flat3 P g) = (w, Ok o) /\
    v = unflat P w /\ it = l_iter o /\ flag = negb (l_iter o =? max_it)%Z /\
    (In TargetMissed (fst call) <-> l_why o = HitLimit) /\ (In TargetMet (fst call) <-> verbose = true /\ l_why o = Converged).
Proof.
  intros call Hz Hm H. unfold call in *. destruct (hb_p_ok _ _ _ _ _ _ _ _ _ _ _ _ _ _ _ Hz H) as [g [rm [lines [w [o [Hg [ER [EN [Hx HO]]]]]]]]]. 
  exists g, rm, w, o. split; [exact Hg|]. split; [exact ER|]. cbv zeta.
  split. {
    unfold run_newton. erewrite <- newton_erase. rewrite EN. reflexivity. }
  apply ret_x in Hx. assert (v = unflat (q_num_p (h_q c)) w) as -> by congruence. assert (it = l_iter o) as -> by congruence. assert (flag = negb (l_iter o =? max_it)%Z) as -> by congruence.
  split; [reflexivity|]. split; [reflexivity|]. split; [reflexivity|].
  match type of EN with newton_p ?a ?b ?c ?d ?e ?f ?g ?h ?i ?j ?k ?l ?m ?n ?o = _ => pose proof (newton_marks a b c d e f g h i j k l m n o w) as Q end.
  rewrite EN in Q. cbn [fst snd] in Q. specialize (Q _ eq_refl eq_refl).
  assert (F : filter mark (fst (harmonic_balance_p J inv verbose ct st c resp num_b max_it stop vj0 damp "x" zj)) = match l_why o with Converged => say verbose [TargetMet] | HitLimit => [TargetMissed] | RanOut => [] end).
  { rewrite HO, !filter_app, Q, !filter_say. cbn [filter mark]. destruct (1 <=? l_iter o)%Z; cbn [filter mark]; destruct verbose; destruct (l_why o); reflexivity. }
  set (out := fst _) in *. rewrite (in_mark TargetMissed out eq_refl), (in_mark TargetMet out eq_refl), F.
  destruct (l_why o), verbose; cbn; intuition congruence.
Qed.

Lemma hb_warning J inv verbose ct st c resp num_b max_it stop vj0 damp zj v it flag :
  let call := harmonic_balance_p J inv verbose ct st c resp num_b max_it stop vj0 damp "x" zj in
  simulates c num_b -> (0 <= max_it)%Z -> r_ret (snd call) = Ok (RetX v it flag) -> In TargetMissed (fst call) ->
  it = max_it /\ flag = false /\ missed J (r_cct (snd call)) resp num_b stop v.
Proof.
  intros call [Ha [Hp [Hw Hz]]] Hm H I. assert (HC : r_cct (snd call) = clamped c).
  { unfold call in *. rewrite hb_erase in *. now apply hb_ok in H. }
  rewrite HC. destruct (hb_marks _ _ _ _ _ _ _ _ _ _ _ _ _ _ _ _ Hz Hm H) as [g [rm [w [o [Hg [ER [HR [-> [-> [-> [M1 _]]]]]]]]]]].
  apply M1 in I. apply run_ended in HR; [|exact Hm]. destruct HR as [n [_ He]]. rewrite I in He. destruct He as [ij [mask [E1 [E2 [E3 [E4 _]]]]]].
  split; [exact E2|]. split; [now rewrite E2, Z.eqb_refl|]. now apply (rel_max_missed J c resp num_b rm Ha ER stop w ij).
Qed.

Lemma hb_no_warning J inv verbose ct st c resp num_b max_it stop vj0 damp zj v it flag :
  let call := harmonic_balance_p J inv verbose ct st c resp num_b max_it stop vj0 damp "x" zj in
  simulates c num_b -> (0 <= max_it)%Z -> inverts inv -> r_ret (snd call) = Ok (RetX v it flag) -> ~ In TargetMissed (fst call) ->
  (everywhere (h_q c) (fun f p i => ~ undefined J (r_cct (snd call)) resp num_b v f p i) -> balanced J (r_cct (snd call)) resp num_b stop v) \/
  it = max_it /\ exists u, undefined_last J (r_cct (snd call)) resp num_b u /\ corrected J (r_cct (snd call)) resp num_b damp u v.
Proof.
  intros call [Ha [Hp [Hw Hz]]] Hm Hi H I. assert (HC : r_cct (snd call) = clamped c).
  { unfold call in *. rewrite hb_erase in *. now apply hb_ok in H. }
  rewrite HC. destruct (hb_marks _ _ _ _ _ _ _ _ _ _ _ _ _ _ _ _ Hz Hm H) as [g [rm [w [o [Hg [ER [HR [-> [-> [-> [M1 _]]]]]]]]]]].
  apply run_ended in HR; [|exact Hm]. destruct HR as [n [_ He]]. destruct (l_why o) eqn:EW.
  - left. destruct He as [ij [mask [E1 [E2 [E3 [E4 _]]]]]]. exact (proj2 (rel_max_le J c resp num_b rm Ha ER w ij stop Hp E3 E4)).
  - exfalso. apply I. now apply M1.
  - right. destruct He as [E1 E2]. destruct n as [|n]; [lia|]. destruct E2 as [E2 [u [ij [mask [W1 [W2 [W3 [W4 [W5 W6]]]]]]]]].
    split; [lia|]. exists (unflat (q_num_p (h_q c)) u). split; [now apply (rel_max_nan J c resp num_b rm Ha ER u ij Hp W3)|].
    destruct Hi as [Hi _]. eapply mstep_corrected; eauto.
Qed.

Lemma hb_done J inv ct st c resp num_b max_it stop vj0 damp zj v it :
  let call := harmonic_balance_p J inv true ct st c resp num_b max_it stop vj0 damp "x" zj in
  simulates c num_b -> (0 <= max_it)%Z -> r_ret (snd call) = Ok (RetX v it true) -> In TargetMet (fst call) /\ ~ In TargetMissed (fst call).
Proof.
  intros call [Ha [Hp [Hw Hz]]] Hm H. destruct (hb_marks _ _ _ _ _ _ _ _ _ _ _ _ _ _ _ _ Hz Hm H) as [g [rm [w [o [Hg [ER [HR [_ [_ [F [M1 M2]]]]]]]]]]].
  apply run_ended in HR; [|exact Hm]. destruct HR as [n [_ He]]. symmetry in F. apply negb_true_iff, Z.eqb_neq in F. unfold call. rewrite M1, M2.
  destruct (l_why o).
  - split; [tauto|discriminate].
  - destruct He as [ij [mask [E1 [E2 _]]]]. contradiction.
  - destruct He as [E1 E2]. destruct n as [|n]; [lia|]. destruct E2 as [E2 _]. lia.
Qed.

(** ** check_hb_error *)
Lemma check_signals_foreach (mx : nat -> nat -> xr) s F P :
  snd (check_signals mx s (list_prod F P)) = foreach F (fun f _ => foreach P (fun p _ => guard (xlt_r (mx f p) s) AssertionError) tt) tt.
Proof.
  assert (E : forall l, snd (check_signals mx s l) = if forallb (fun fp => xlt_r (mx (fst fp) (snd fp)) s) l then Ok tt else Err AssertionError).
  { induction l as [|[f p] l IH]; [reflexivity|]. cbn [check_signals forallb fst snd]. destruct (xlt_r (mx f p) s); [|reflexivity]. cbn [andb].
    rewrite <- IH. destruct (check_signals mx s l); reflexivity. }
  rewrite E. symmetry. etransitivity; [apply (foreach_guard F (fun f => foreach P (fun p _ => guard (xlt_r (mx f p) s) AssertionError) tt) (fun f => forallb (fun p => xlt_r (mx f p) s) P))|].
  - intros f _. apply (foreach_guard P (fun p => guard (xlt_r (mx f p) s) AssertionError)). reflexivity.
  - assert (EB : forallb (fun f => forallb (fun p => xlt_r (mx f p) s) P) F = forallb (fun fp => xlt_r (mx (fst fp) (snd fp)) s) (list_prod F P)); [clear|now rewrite EB]. induction F as [|f F IH]; [reflexivity|]. cbn [list_prod forallb]. rewrite forallb_app, <- IH. f_equal. clear. induction P as [|p P IH']; [reflexivity|]. cbn. now rewrite IH'.
Qed.
Lemma check_erase J v c resp num_b s : snd (check_hb_error_p J v c resp num_b s) = check_hb_error J v c resp num_b s.
Proof.
  unfold check_hb_error_p, check_hb_error. destruct (qtcurrent_all_freq J v (h_q c) resp num_b) as [ij|e]; [|reflexivity]. cbn [bind]. cbv zeta.
  rewrite <- check_signals_foreach. match goal with |- context [check_signals ?a ?b ?c] => destruct (check_signals a b c) as [out r] end. reflexivity.
Qed.
Lemma check_printed J v c resp num_b s : args_ok (h_q c) num_b -> (1 <= q_npts (h_q c))%nat ->
  let call := check_hb_error_p J v c resp num_b s in
  exists out ok, checks J c resp num_b s v (list_prod (seq 1 (q_num_f (h_q c))) (seq 1 (q_num_p (h_q c)))) out ok /\
    fst call = Checking :: out ++ (if ok then [EmptyLine] else []) /\ snd call = if ok then Ok tt else Err AssertionError.
Proof.
  intros Ha Hp. destruct (all_freq J (h_q c) resp num_b v Ha) as [ij [E Hij]]. unfold check_hb_error_p. rewrite E. cbv zeta.
  set (mx := fun f p => npmax _).
  assert (G : forall l, (forall f p, In (f, p) l -> signal (h_q c) f p) -> exists ok, checks J c resp num_b s v l (fst (check_signals mx s l)) ok /\ snd (check_signals mx s l) = if ok then Ok tt else Err AssertionError).
  { induction l as [|[f p] l IH]; intros Hs; [exists true; split; [constructor|reflexivity]|].
    destruct IH as [ok [K1 K2]]; [intros; apply Hs; now right|]. assert (S0 : signal (h_q c) f p) by (apply Hs; now left).
    set (rel := fun i => xdiv (Cmod (h_vt c f p - h_zt c f p * ij f p i - v f p i)%C) (Cmod (v f p i))).
    assert (ER : forall i, (i < q_npts (h_q c))%nat -> rel i = xdiv (Cmod (residual_at J c resp num_b v f p i)) (Cmod (v f p i))).
    { intros i Hi. unfold rel, residual_at. now rewrite (Hij f p i S0 Hi). }
    set (es := map rel (seq 0 (q_npts (h_q c)))).
    assert (L : length es = q_npts (h_q c)) by (unfold es; now rewrite map_length, seq_length).
    assert (EI : forall i, (i < q_npts (h_q c))%nat -> error_is (nth i es NaN) (residual_at J c resp num_b v f p i) (v f p i)).
    { intros i Hi. unfold es. rewrite nth_map_seq by exact Hi. rewrite ER by exact Hi. apply rel_is. }
    assert (MX : largest_of es (mx f p)) by (apply npmax_largest; intros E0; rewrite E0 in L; cbn in L; lia).
    assert (LT : forall i, (i < q_npts (h_q c))%nat -> xlt_r (rel i) s = true <-> v f p i <> RtoC 0 /\ (Cmod (residual_at J c resp num_b v f p i) < s * Cmod (v f p i))%R).
    { intros i Hi. rewrite ER by exact Hi. rewrite xdiv_lt by apply Cmod_ge_0. now rewrite Cmod_0_iff. }
    cbn [check_signals]. destruct (xlt_r (mx f p) s) eqn:EX.
    - exists ok. destruct (check_signals mx s l) as [out r]. cbn [fst snd] in *. split; [|exact K2]. apply K_pass with es; try assumption.
      intros i Hi. apply LT; [exact Hi|]. apply (npmax_lt es s) in EX. destruct EX as [_ EX]. apply EX. apply in_map_iff. exists i. split; [reflexivity|apply in_seq; lia].
    - exists false. cbn [fst snd]. split; [|reflexivity].
      assert (NX : existsb (fun i => negb (xlt_r (rel i) s)) (seq 0 (q_npts (h_q c))) = true).
      { destruct (existsb _ _) eqn:EE; [reflexivity|]. exfalso. assert (xlt_r (mx f p) s = true); [|congruence]. apply (npmax_lt es s). split; [intros E0; rewrite E0 in L; cbn in L; lia|].
        intros a Hain. apply in_map_iff in Hain. destruct Hain as [i [<- Hi]]. destruct (xlt_r (rel i) s) eqn:EZ; [reflexivity|]. exfalso.
        assert (existsb (fun i => negb (xlt_r (rel i) s)) (seq 0 (q_npts (h_q c))) = true); [|congruence]. apply existsb_exists. exists i. split; [exact Hi|now rewrite EZ]. }
      apply existsb_exists in NX. destruct NX as [i [Hi NX]]. apply in_seq in Hi. apply K_fail with es i; try assumption; [lia|].
      intros Q. apply LT in Q; [|lia]. rewrite Q in NX. discriminate. }
  destruct (G (list_prod (seq 1 (q_num_f (h_q c))) (seq 1 (q_num_p (h_q c))))) as [ok [K1 K2]].
  { intros f p I. apply in_prod_iff in I. destruct I as [I1 I2]. apply in_seq in I1, I2. split; lia. }
  destruct (check_signals mx s _) as [out r]. cbn [fst snd] in *. exists out, ok. split; [exact K1|]. subst r. destruct ok; split; reflexivity.
Qed.
