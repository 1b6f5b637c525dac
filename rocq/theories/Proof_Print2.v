(** Proofs about the printed summaries, continued: circuits and dc data. *)
From Coq Require Import List ZArith Bool Arith Reals Lra Lia String Ascii.
From Coquelicot Require Import Complex Rcomplements.
From Verif Require Import Base Round Model_QtCurrent Model_Circuit Spec_Circuit Proof_Circuit Proof_CircuitFile Model_IVData Model_IFData Model_ExpData Model_Objects Model_Misc Spec_Misc Proof_Misc Model_Print Spec_Print Proof_Print.
Import ListNotations.
Open Scope R_scope.

Lemma concat_cons s l : String.concat "" (s :: l) = (s ++ String.concat "" l)%string.
Proof. destruct l as [|t l]; [cbn; now rewrite app_nil_s|reflexivity]. Qed.
Lemma concat_app l l' : String.concat "" (l ++ l') = (String.concat "" l ++ String.concat "" l')%string.
Proof. induction l as [|s l IH]; [reflexivity|]. cbn [List.app]. now rewrite !concat_cons, IH, app_assoc_s. Qed.
Lemma foreach_concat {A} (l : list A) (block : A -> res string) (g : A -> string) acc : (forall x, In x l -> block x = Ok (g x)) ->
  foreach l (fun x out => let* s := block x in Ok (out ++ s)%string) acc = Ok (acc ++ String.concat "" (map g l))%string.
Proof.
  revert acc. induction l as [|x l IH]; intros acc H; [cbn; now rewrite app_nil_s|]. cbn [foreach map]. rewrite H by (now left). cbn [bind].
  rewrite IH by (intros y Hy; apply H; now right). now rewrite concat_cons, app_assoc_s.
Qed.
Lemma foreach_blocks nf np (block : nat -> nat -> res string) (g : nat -> nat -> string) : (forall f p, (1 <= f <= nf)%nat -> (1 <= p <= np)%nat -> block f p = Ok (g f p)) ->
  foreach (seq 1 nf) (fun f out => foreach (seq 1 np) (fun p out => let* s := block f p in Ok (out ++ s)%string) out) ""%string = Ok (blocks nf np g).
Proof.
  intros H. assert (G : forall l acc, (forall f, In f l -> (1 <= f <= nf)%nat) ->
    foreach l (fun f out => foreach (seq 1 np) (fun p out => let* s := block f p in Ok (out ++ s)%string) out) acc = Ok (acc ++ String.concat "" (flat_map (fun f => map (g f) (seq 1 np)) l))%string).
  { induction l as [|f l IH]; intros acc Hl; [cbn; now rewrite app_nil_s|]. cbn [foreach flat_map].
    rewrite (foreach_concat (seq 1 np) (block f) (g f)) by (intros p Hp; apply in_seq in Hp; apply H; [apply Hl; now left|lia]). cbn [bind].
    rewrite IH by (intros y Hy; apply Hl; now right). now rewrite concat_app, app_assoc_s. }
  rewrite G by (intros f Hf; apply in_seq in Hf; lia). reflexivity.
Qed.
Lemma cell_exists {A} (m : list (list A)) a b f p : rectangular m a b -> (f < a)%nat -> (p < b)%nat -> exists x, cell m f p = Some x.
Proof.
  intros [L R] Hf Hp. unfold cell. destruct (nth_error m f) as [row|] eqn:E; [|apply nth_error_None in E; lia].
  assert (Lr : List.length row = b) by (apply R; eapply nth_error_In; exact E).
  destruct (nth_error row p) as [x|] eqn:N; [eauto|apply nth_error_None in N; lia].
Qed.
Lemma pyget_nat {A} (l : list A) f x : nth_error l f = Some x -> pyget l (Z.of_nat f) = Ok x.
Proof.
  intros H. apply (pyget_names _ _ f); [|assumption]. split; [|now left]. apply nth_error_Some. congruence.
Qed.
Lemma nth_exists {A} (l : list A) f : (f < List.length l)%nat -> exists x, nth_error l f = Some x.
Proof. intros H. destruct (nth_error l f) eqn:E; [eauto|apply nth_error_None in E; lia]. Qed.
Lemma green_ok s : cprint "" s (Some "GREEN"%string) = line (green s).
Proof. cbn [cprint upper lookup terminal_colors String.eqb]. unfold line, green. change (escape "92") with (String (ascii_of_nat 27) "[92m"). change (escape "0") with (String (ascii_of_nat 27) "[0m"). now rewrite !app_assoc_s. Qed.
Lemma tabs_app n : tabs (S n) = (Model_Misc.tab ++ tabs n)%string. Proof. reflexivity. Qed.
Lemma tabs1 : tabs 1 = Model_Misc.tab. Proof. reflexivity. Qed.
Lemma tabs2 : tabs 2 = (Model_Misc.tab ++ Model_Misc.tab)%string. Proof. reflexivity. Qed.
Lemma tabs3 : tabs 3 = (Model_Misc.tab ++ Model_Misc.tab ++ Model_Misc.tab)%string. Proof. reflexivity. Qed.
Ltac flat := repeat rewrite app_assoc_s.

Definition normalized (c : circ) : Prop := c_fgap c = None \/ c_vgap c = None \/ c_rn c = None.
Lemma block_normalized c f p z : well_shaped c -> (1 <= f <= c_num_f c)%nat -> (1 <= p <= c_num_p c)%nat -> cell (c_vt c) f p = Some (Some z) ->
  exists s, print_normalized c f p = Ok s /\ describes_normalized c f p (fst z) s.
Proof.
  intros (_ & W1 & _ & W3 & W4 & _) Hf Hp Hz.
  destruct (nth_exists (c_freq c) f ltac:(lia)) as [fr F]. destruct (cell_exists _ _ _ f p W3 ltac:(lia) ltac:(lia)) as [zt Z]. destruct (cell_exists _ _ _ f p W4 ltac:(lia) ltac:(lia)) as [co K].
  unfold print_normalized. rewrite (pyget_nat _ _ _ F), (get2_nat _ _ _ _ Hz), (get2_nat _ _ _ _ Z), (get2_nat _ _ _ _ K). cbn [bind]. eexists. split; [reflexivity|].
  exists fr, zt, co, (digits f), (digits p), (fixed false 0 4 fr), (fixed false 0 4 (fst z)), (fixed_complex 2 zt).
  repeat split; try assumption; try apply digits_val; try apply fixed_denotes; try apply fixed_complex_ok.
  rewrite green_ok. unfold str1, str3, str4, print, vt_real, show_x, text, line, Re. cbn [fold_right]. rewrite tabs1, tabs2, tabs3. flat. rewrite app_nil_s. reflexivity.
Qed.
Lemma title_ok c : exists a b, read_digits 0 a = Some (c_num_f c) /\ read_digits 0 b = Some (c_num_p c) /\
  circuit_str c = ("Embedding circuit (Tones:" ++ a ++ ", Harmonics:" ++ b ++ ")" ++ (if String.eqb (c_name c) "" then "" else ": " ++ c_name c))%string.
Proof. exists (digits (c_num_f c)), (digits (c_num_p c)). repeat split; apply digits_val. Qed.
Lemma choice_blocks nf np (P : nat -> nat -> string -> Prop) (block : nat -> nat -> res string) :
  (forall f p, (1 <= f <= nf)%nat -> (1 <= p <= np)%nat -> exists s, block f p = Ok s /\ P f p s) ->
  exists g, (forall f p, (1 <= f <= nf)%nat -> (1 <= p <= np)%nat -> block f p = Ok (g f p) /\ P f p (g f p)).
Proof.
  intros H. exists (fun f p => match block f p with Ok s => s | Err _ => ""%string end). intros f p Hf Hp. destruct (H f p Hf Hp) as (s & E & Q). rewrite E. auto.
Qed.
Lemma info_normalized c : well_shaped c -> normalized c -> (forall f p, (1 <= f <= c_num_f c)%nat -> (1 <= p <= c_num_p c)%nat -> exists z, cell (c_vt c) f p = Some (Some z)) ->
  exists a b block, read_digits 0 a = Some (c_num_f c) /\ read_digits 0 b = Some (c_num_p c) /\
  print_info c = Ok (line ("Embedding circuit (Tones:" ++ a ++ ", Harmonics:" ++ b ++ ")" ++ (if String.eqb (c_name c) "" then "" else ": " ++ c_name c)) ++ blocks (c_num_f c) (c_num_p c) block ++ line "")%string /\
  forall f p, (1 <= f <= c_num_f c)%nat -> (1 <= p <= c_num_p c)%nat -> exists z, cell (c_vt c) f p = Some (Some z) /\ describes_normalized c f p (fst z) (block f p).
Proof.
  intros W N V. destruct (title_ok c) as (a & b & A & B & T). 
  destruct (choice_blocks (c_num_f c) (c_num_p c) (fun f p s => exists z, cell (c_vt c) f p = Some (Some z) /\ describes_normalized c f p (fst z) s) (print_normalized c)) as [g G].
  { intros f p Hf Hp. destruct (V f p Hf Hp) as [z Hz]. destruct (block_normalized c f p z W Hf Hp Hz) as (s & E & D). exists s. eauto. }
  exists a, b, g. split; [assumption|]. split; [assumption|]. split; [|intros f p Hf Hp; now apply G].
  unfold print_info. assert (E : match c_fgap c, c_vgap c, c_rn c with Some fgap, Some _, Some _ => print_units c fgap | _, _, _ => print_normalized c end = print_normalized c).
  { destruct N as [N|[N|N]]; rewrite N; destruct (c_fgap c); try reflexivity; destruct (c_vgap c); reflexivity. }
  rewrite E. cbv zeta. rewrite (foreach_blocks _ _ _ g) by (intros f p Hf Hp; now apply G). cbn [bind]. rewrite T. reflexivity.
Qed.
(** ** With units *)
Definition power_of (z vt : C) (vgap rn : R) : R := if Reqb (fst z * rn) 0 then 0 else Cmod (Cmult vt (RtoC vgap)) ^ 2 / (8 * (fst z * rn)).
Lemma power_texts c f p z vt vgap rn : c_vgap c = Some vgap -> c_rn c = Some rn -> cell (c_vt c) f p = Some (Some vt) -> cell (c_zt c) f p = Some z ->
  available_power c (Z.of_nat f) (Z.of_nat p) "W" = Ok (XFin (power_of z vt vgap rn)) /\
  available_power c (Z.of_nat f) (Z.of_nat p) "dBm" = Ok (xscale 10 (np_log10 (power_of z vt vgap rn * 10 ^ 3))).
Proof.
  intros Hv Hr Hvt Hz. unfold available_power. rewrite Hv, Hr, (get2_nat _ _ _ _ Hvt), (get2_nat _ _ _ _ Hz). cbn [bind]. unfold power_of, Re.
  destruct (Reqb_spec (fst z * rn) 0) as [E|E]; split; try reflexivity.
  - change ((Model_Circuit.lower "W" =? "w")%string) with true. cbv iota. do 2 f_equal. field. split; intro X; apply E; rewrite X; ring.
  - cbn [xbind]. change (Model_Circuit.lower "dBm") with "dbm"%string. cbn [String.eqb Ascii.eqb Bool.eqb]. cbv iota. cbn [xbind]. do 4 f_equal. field. split; intro X; apply E; rewrite X; ring.
Qed.
Lemma log10_eq x : log10 x = ln x / ln 10. Proof. reflexivity. Qed.
Lemma block_units c fgap vgap rn f p z vt : well_shaped c -> c_vgap c = Some vgap -> c_rn c = Some rn -> (1 <= f <= c_num_f c)%nat -> (1 <= p <= c_num_p c)%nat ->
  cell (c_vt c) f p = Some (Some vt) -> cell (c_zt c) f p = Some z -> (forall x, nth_error (c_freq c) f = Some x -> x <> 0) ->
  exists s, print_units c fgap f p = Ok s /\ describes_units c fgap f p (fst vt) (power_of z vt vgap rn) s.
Proof.
  intros (_ & W1 & _ & W3 & W4 & _) Hv Hr Hf Hp Hvt Hz Hfr.
  destruct (nth_exists (c_freq c) f ltac:(lia)) as [fr F]. destruct (cell_exists _ _ _ f p W4 ltac:(lia) ltac:(lia)) as [co K].
  destruct (power_texts c f p z vt vgap rn Hv Hr Hvt Hz) as [P1 P2]. set (w := power_of z vt vgap rn) in *.
  unfold print_units. rewrite (pyget_nat _ _ _ F), (get2_nat _ _ _ _ Hvt), (get2_nat _ _ _ _ Hz), P1, P2, (get2_nat _ _ _ _ K). cbn [bind]. eexists. split; [reflexivity|].
  assert (Nz : fr * INR p <> 0) by (apply Rmult_integral_contrapositive; split; [now apply Hfr|apply not_0_INR; lia]).
  exists fr, z, co, (digits f), (digits p), (fixed false 0 1 (fr * fgap / 10 ^ 9)), (fixed false 0 4 (fst vt)), (fixed false 0 4 (fst vt / (fr * INR p))), (fixed_complex 2 z), (sci false "E" 2 w),
    (show_x (fixed false 0 3) (xscale 10 (np_log10 (w * 10 ^ 3)))).
  split; [assumption|]. split; [assumption|]. split; [assumption|]. split; [apply digits_val|]. split; [apply digits_val|]. split; [apply fixed_denotes|]. split; [apply fixed_denotes|]. split; [apply fixed_denotes|].
  split; [apply fixed_complex_ok|]. split; [apply sci_ok|]. split; [|split].
  - intros Pw. unfold np_log10. destruct (Rltb_spec 0 (w * 10 ^ 3)); [|lra]. cbn [xscale show_x]. rewrite log10_eq. replace (w * 1000) with (w * 10 ^ 3) by ring. apply fixed_denotes.
  - intros W0. unfold np_log10. rewrite W0, Rmult_0_l. destruct (Rltb_spec 0 0); [lra|]. destruct (Reqb_spec 0 0); [reflexivity|lra].
  - rewrite green_ok. unfold str2, str3, str4, str6, str7, str8, print, vt_real, vt_photons, text, line, Re. destruct (Reqb_spec (fr * INR p) 0); [contradiction|]. cbn [fold_right show_x]. rewrite tabs1, tabs2, tabs3. flat. rewrite app_nil_s. reflexivity.
Qed.
Lemma info_units c fgap vgap rn : well_shaped c -> c_fgap c = Some fgap -> c_vgap c = Some vgap -> c_rn c = Some rn ->
  (forall f p, (1 <= f <= c_num_f c)%nat -> (1 <= p <= c_num_p c)%nat -> exists z, cell (c_vt c) f p = Some (Some z)) ->
  (forall f x, (1 <= f)%nat -> nth_error (c_freq c) f = Some x -> x <> 0) ->
  exists a b block, read_digits 0 a = Some (c_num_f c) /\ read_digits 0 b = Some (c_num_p c) /\
  print_info c = Ok (line ("Embedding circuit (Tones:" ++ a ++ ", Harmonics:" ++ b ++ ")" ++ (if String.eqb (c_name c) "" then "" else ": " ++ c_name c)) ++ blocks (c_num_f c) (c_num_p c) block ++ line "")%string /\
  forall f p, (1 <= f <= c_num_f c)%nat -> (1 <= p <= c_num_p c)%nat -> exists v z, cell (c_vt c) f p = Some (Some v) /\ cell (c_zt c) f p = Some z /\
    describes_units c fgap f p (fst v) (if Reqb (fst z * rn) 0 then 0 else Cmod (Cmult v (RtoC vgap)) ^ 2 / (8 * (fst z * rn))) (block f p).
Proof.
  intros W F V R Vt Fr. destruct (title_ok c) as (a & b & A & B & T).
  destruct (choice_blocks (c_num_f c) (c_num_p c) (fun f p s => exists v z, cell (c_vt c) f p = Some (Some v) /\ cell (c_zt c) f p = Some z /\ describes_units c fgap f p (fst v) (power_of z v vgap rn) s) (print_units c fgap)) as [g G].
  { intros f p Hf Hp. destruct (Vt f p Hf Hp) as [z Hz]. destruct W as (W0 & W1 & W2 & W3 & W4 & W5). destruct (cell_exists _ _ _ f p W3 ltac:(lia) ltac:(lia)) as [zt Z].
    destruct (block_units c fgap vgap rn f p zt z) as (s & E & D); try assumption; [unfold well_shaped; auto 10|intros x Hx; apply (Fr f); [lia|assumption]|]. exists s. split; [assumption|]. now exists z, zt. }
  exists a, b, g. split; [assumption|]. split; [assumption|]. split; [|intros f p Hf Hp; now apply G].
  unfold print_info. rewrite F, V, R. cbv zeta. rewrite (foreach_blocks _ _ _ g) by (intros f p Hf Hp; now apply G). cbn [bind]. rewrite T. reflexivity.
Qed.
(** ** The imaginary part of the source voltage *)
Lemma foreach2_ext {A} (l : list A) m (b1 b2 : A -> nat -> res string) acc : (forall f p, b1 f p = b2 f p) ->
  foreach l (fun f out => foreach m (fun p out => let* s := b1 f p in Ok (out ++ s)%string) out) acc = foreach l (fun f out => foreach m (fun p out => let* s := b2 f p in Ok (out ++ s)%string) out) acc.
Proof. intros H. apply foreach_ext. intros f out _. apply foreach_ext. intros p o _. now rewrite H. Qed.
Lemma pyidx_nat n f j : pyidx n (Z.of_nat f) = Some j -> j = f.
Proof.
  unfold pyidx. destruct (Z.ltb_spec (Z.of_nat f) 0) as [H|H]; [lia|]. cbv zeta. destruct ((0 <=? Z.of_nat f)%Z && (Z.of_nat f <? Z.of_nat n)%Z)%bool; [|discriminate].
  intros E. injection E as <-. apply Nat2Z.id.
Qed.
Lemma imaginary_lost c c' : same_but false true false false false true c c' -> normalized c ->
  (forall f p, option_map vt_real (cell (c_vt c) f p) = option_map vt_real (cell (c_vt c') f p)) -> List.map (@List.length _) (c_vt c') = List.map (@List.length _) (c_vt c) ->
  print_info c' = print_info c.
Proof.
  intros (E1 & E2 & E3 & E4 & E5 & E6 & E7 & E8 & E9 & F & _ & Z & Vb & K & _) N H L.
  destruct F as [F|F]; [discriminate|]. destruct Z as [Z|Z]; [discriminate|]. destruct K as [K|K]; [discriminate|].
  assert (G : forall f p, (let* vt := get2 (c_vt c') (Z.of_nat f) (Z.of_nat p) in Ok (vt_real vt)) = (let* vt := get2 (c_vt c) (Z.of_nat f) (Z.of_nat p) in Ok (vt_real vt))).
  { intros f p. specialize (H f p). assert (Ll : List.length (c_vt c') = List.length (c_vt c)) by (rewrite <- (map_length (@List.length _) (c_vt c')), L; apply map_length).
    assert (Lr : nth_error (List.map (@List.length _) (c_vt c')) f = nth_error (List.map (@List.length _) (c_vt c)) f) by (now rewrite L).
    unfold get2, pyget, cell in *. rewrite Ll. rewrite !nth_error_map in Lr.
    destruct (pyidx (List.length (c_vt c)) (Z.of_nat f)) as [j|] eqn:J; [|reflexivity]. 
    assert (j = f). { now apply pyidx_nat in J. }
    subst j. destruct (nth_error (c_vt c') f) as [r'|], (nth_error (c_vt c) f) as [r|]; cbn [option_map] in Lr; try discriminate; [|reflexivity]. cbn [bind].
    injection Lr as Lr. rewrite Lr. destruct (pyidx (List.length r) (Z.of_nat p)) as [j|] eqn:J2; [|reflexivity].
    assert (j = p). { now apply pyidx_nat in J2. }
    subst j. destruct (nth_error r' p), (nth_error r p); cbn [option_map bind] in *; try discriminate; [|reflexivity]. injection H as H. now rewrite H. }
  assert (B : forall f p, print_normalized c' f p = print_normalized c f p).
  { intros f p. unfold print_normalized. rewrite F, Z, K. destruct (pyget _ _); cbn [bind]; [|reflexivity]. specialize (G f p).
    destruct (get2 (c_vt c') _ _), (get2 (c_vt c) _ _); cbn [bind] in *; try congruence. injection G as G. rewrite G. reflexivity. }
  assert (N' : normalized c') by (unfold normalized; rewrite E5, E6, E8; exact N).
  assert (S : forall c, normalized c -> print_info c = let* body := foreach (seq 1 (c_num_f c)) (fun f out => foreach (seq 1 (c_num_p c)) (fun p out => let* s := print_normalized c f p in Ok (out ++ s)%string) out) ""%string in Ok (print (circuit_str c) ++ body ++ print "")%string).
  { intros d D. unfold print_info. cbv zeta. f_equal. destruct D as [D|[D|D]]; rewrite D; destruct (c_fgap d); try reflexivity; destruct (c_vgap d); reflexivity. }
  rewrite !S by assumption. unfold circuit_str. rewrite E1, E2, E3. f_equal. now apply foreach2_ext.
Qed.
(** ** Dc data *)
Lemma fixed_long w d x : (w <= String.length (fixed false w d x))%nat.
Proof. unfold fixed, pad_left. rewrite length_app, times_length. lia. Qed.
Lemma row_shows name x y unit : x = y -> exists l, row name x unit = line l /\ shows (Some (name, y, unit)) l.
Proof.
  intros <-. exists (tabs 1 ++ name ++ fixed false 6 2 x ++ unit)%string. split; [unfold row, line; rewrite tabs1; flat; reflexivity|]. exists (fixed false 6 2 x). split; [apply fixed_denotes|]. split; [apply fixed_long|reflexivity].
Qed.
Lemma text_cons l rest : text (l :: rest) = (line l ++ text rest)%string. Proof. reflexivity. Qed.
Lemma table_row name x y unit rest t : x = y -> describes_table t rest -> describes_table (Some (name, y, unit) :: t) (row name x unit ++ rest).
Proof.
  intros E (ls & F & ->). destruct (row_shows name x y unit E) as (l & R & S). exists (l :: ls). split; [now constructor|]. now rewrite text_cons, R.
Qed.
Lemma table_gap rest t : describes_table t rest -> describes_table (None :: t) (newline ++ rest).
Proof. intros (ls & F & ->). exists (""%string :: ls). split; [now constructor|reflexivity]. Qed.
Lemma dc_str_ok comment d : exists s, describes_table (dc_table d) s /\
  dc_str comment d = (text [String (ascii_of_nat 27) "[35m"; "DC I-V data:" ++ String (ascii_of_nat 27) "[0m" ++ " " ++ comment; ""] ++ s)%string.
Proof.
  eexists. split; [|unfold dc_str; cbv zeta; unfold text, line; cbn [fold_right]; change (escape "35") with (String (ascii_of_nat 27) "[35m"); change (escape "0") with (String (ascii_of_nat 27) "[0m"); flat; reflexivity].
  unfold dc_table, quantity. cbn [List.app]. rewrite ?tabs1, ?tabs2.
  repeat first [apply table_row; [try field; try ring; try reflexivity|] | apply table_gap].
  destruct (d_if d) as [f|]; [|exists []; split; [constructor|reflexivity]].
  rewrite <- (app_nil_s (row _ _ _)). apply table_row; [reflexivity|]. exists []. split; [constructor|reflexivity].
Qed.
Lemma dc_repr_ok d : exists v r, denotes v (round_dec 2 (dc_vgap (d_dc d) * 1000)) /\ denotes r (round_dec 2 (dc_rn (d_dc d))) /\
  dc_repr d = ("DC I-V curve: Vgap = " ++ v ++ " mV, Rn = " ++ r ++ " ohms")%string.
Proof.
  unfold dc_repr. eexists _, _. split; [|split; [|reflexivity]]; [|apply fixed_denotes]. replace (dc_vgap (d_dc d) * 1000) with (dc_vgap (d_dc d) / / 10 ^ 3) by field. apply fixed_denotes.
Qed.
Lemma header_ok colours s color : colours = ""%string -> color = None -> header colours s color = text [tabs 1 ++ s ++ ":"; tabs 1 ++ many "-" 50]%string.
Proof. intros -> ->. unfold header, cprint, text, line. cbn [fold_right]. rewrite tabs1. flat. reflexivity. Qed.
Lemma imaginary_lost' c c' : same_but false true false false false true c c' -> normalized c ->
  (forall f p, option_map (option_map Re) (cell (c_vt c) f p) = option_map (option_map Re) (cell (c_vt c') f p)) -> List.map (@List.length _) (c_vt c') = List.map (@List.length _) (c_vt c) ->
  print_info c' = print_info c.
Proof.
  intros S N H L. apply imaginary_lost; try assumption. intros f p. specialize (H f p).
  destruct (cell (c_vt c) f p) as [[z|]|], (cell (c_vt c') f p) as [[z'|]|]; cbn [option_map vt_real] in *; try discriminate; try reflexivity. injection H as H. now rewrite H.
Qed.
(** ** Concrete cases *)
Definition print_c (z : C) : circ := {|
  c_name := "LO"; c_num_f := 1; c_num_p := 2; c_num_n := 2; c_fgap := None; c_vgap := None; c_igap := None; c_rn := None;
  c_freq := [0; 35 / 100]; c_vt := [[Some (RtoC 0); Some (RtoC 0); Some (RtoC 0)]; [Some (RtoC 0); Some z; Some (RtoC 0)]];
  c_zt := repeat (repeat (1 / 2, - 1 / 4) 3) 2; c_npts := 2; c_vb := [0; 1]; c_comment := repeat (repeat "pump"%string 3) 2;
  w_freq := true; w_vt := true; w_zt := true; w_vb := true |}.
Lemma print_shape z : well_shaped (print_c z).
Proof.
  unfold well_shaped, rectangular. cbn. repeat split; intros row H; cbn in H; repeat destruct H as [<- | H]; try reflexivity; contradiction.
Qed.
Lemma print_finite z f p : (1 <= f <= c_num_f (print_c z))%nat -> (1 <= p <= c_num_p (print_c z))%nat -> exists v, cell (c_vt (print_c z)) f p = Some (Some v).
Proof. cbn [print_c c_num_f c_num_p]. intros Hf Hp. assert (f = 1)%nat as -> by lia. destruct p as [|[|[|p]]]; [lia| | |lia]; eexists; reflexivity. Qed.
Lemma imaginary_case : same_but false true false false false true (print_c (RtoC 1)) (print_c (1, 1)) /\ cell (c_vt (print_c (RtoC 1))) 1 1 = Some (Some (1, 0)) /\
  cell (c_vt (print_c (1, 1))) 1 1 = Some (Some (1, 1)) /\ print_info (print_c (1, 1)) = print_info (print_c (RtoC 1)).
Proof.
  assert (S : same_but false true false false false true (print_c (RtoC 1)) (print_c (1, 1))) by (unfold same_but; repeat split; auto).
  split; [assumption|]. split; [reflexivity|]. split; [reflexivity|]. apply imaginary_lost'; [assumption|left; reflexivity| |reflexivity].
  intros f p. unfold cell. cbn [print_c c_vt]. destruct f as [|[|[|f]]]; destruct p as [|[|[|[|p]]]]; reflexivity.
Qed.
Lemma sci_case : sci false "e" 2 (9996 / 1000) = "1.00e+01"%string.
Proof.
  assert (X : 9996 / 1000 <> 0) by lra. assert (E : exponent10 (9996 / 1000) = 0%Z).
  { destruct (exponent_spec _ X) as [E1 E2]. rewrite Rabs_pos_eq in E1, E2 by lra. set (e := exponent10 _) in *.
    destruct (Z_lt_le_dec e 0) as [L|L].
    - exfalso. assert (powerRZ 10 (e + 1) <= powerRZ 10 0); [|change (powerRZ 10 0) with 1 in *; lra]. replace 0%Z with (e + 1 + Z.of_nat (Z.to_nat (- e - 1)))%Z by lia. rewrite (ten_add (e + 1)), ten_nat.
      assert (1 <= 10 ^ Z.to_nat (- e - 1)) by (apply pow_R1_Rle; lra). assert (0 < powerRZ 10 (e + 1)) by apply ten_pos. nra.
    - destruct (Z.eq_dec e 0) as [|N]; [assumption|]. exfalso. assert (10 <= powerRZ 10 e); [|lra]. replace e with (1 + Z.of_nat (Z.to_nat (e - 1)))%Z by lia. rewrite ten_add, ten_nat, powerRZ_1.
      assert (1 <= 10 ^ Z.to_nat (e - 1)) by (apply pow_R1_Rle; lra). nra. }
  unfold sci, sci_parts. destruct (Reqb_spec (9996 / 1000) 0); [contradiction|]. rewrite E. cbv zeta.
  replace (rint _) with 1000%Z.
  - change (Z.to_nat 1000 =? 10 ^ (2 + 1))%nat with true. cbv iota. destruct (Rltb_spec (9996 / 1000) 0); [lra|]. reflexivity.
  - symmetry. apply rint_unique_strict. rewrite (Rabs_pos_eq (_ / _)) by lra. rewrite Z.sub_0_r, <- (pow_powerRZ 10 2). apply Rabs_lt_between. lra.
Qed.
Lemma row_case : row "Vgap:" (2735 / 1000) " mV" = (tabs 1 ++ "Vgap:" ++ "  2.74" ++ " mV" ++ String (ascii_of_nat 10) "")%string.
Proof.
  unfold row, fixed. replace (rint _) with 274%Z; [destruct (Rltb_spec (2735 / 1000) 0); [lra|]; reflexivity|].
  rewrite Rabs_pos_eq by lra. replace (2735 / 1000 * 10 ^ 2) with (IZR 273 + / 2) by lra. rewrite rint_tie. reflexivity.
Qed.
