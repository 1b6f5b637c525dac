(** Lemmas about plot_overall_results, and a measurement for which the reports are made. *)
From Coq Require Import List Bool Arith ZArith Lia Lra Reals String Ascii Sorted.
From Coquelicot Require Import Complex.
From Verif Require Import Base Model_QtCurrent Float NumPy Model_MathFn Model_RespFn Model_CleanData Model_IVData Model_IFData Model_ExpData Model_Objects Model_Misc Model_Print Model_Files Model_Plots Spec_Plots Model_Report Spec_Report.
From Verif Require Import Bessel Proof_BesselVal Spec_CleanData Proof_CleanData Proof_Objects4 Proof_Plots2 Proof_Plots3 Proof_Plots5 Proof_Circuit Proof_NumPy Proof_IVCurve Proof_Objects Proof_Objects2 Proof_Plots Proof_Report.
Import ListNotations.
Open Scope string_scope.
Local Notation length := List.length.
Local Notation tab := Model_Misc.tab.

Definition g_of (x : dataset) : gathered :=
  {| t_freq := Spec_Report.freq_of x; t_tn := b_tn (n_summary (if_of x)); t_gain := b_gdb (n_summary (if_of x)); t_alpha := rec_alpha (circuit_of x); t_zw := rec_zw (circuit_of x); t_rdyn := b_zj (n_summary (if_of x));
     t_zt := rec_zt (circuit_of x); t_vt := rec_vt (circuit_of x); t_fit := rec_fit (circuit_of x); t_if_noise := if_noise (n_dcif (if_of x)); t_if_fit := if_fit (n_dcif (if_of x)) |}.
Lemma gather_all l : (forall x, In x l -> complete x) -> mapM gather (map pumped_of l) = Ok (map g_of l).
Proof.
  induction l as [|x l IH]; intros H; [reflexivity|]. cbn [map mapM]. destruct (H x (or_introl eq_refl)) as [H1 H2]. unfold gather at 1, rec_results. rewrite H1, H2. cbn [bind]. rewrite IH by (intros y Y; apply H; now right). reflexivity.
Qed.
Lemma writes_app l m w : writes (app l m) w = (do _ <- writes l; writes m) w.
Proof. revert w. induction l as [|x l IH]; intros w; [reflexivity|]. cbn [app]. unfold writes in *. cbn [io_each]. unfold iobind in *. destruct (effect _ w) as [w' [[]|e]]; [apply IH|reflexivity]. Qed.
Lemma lines_concat (l : list string) : String.concat "" l = fold_right String.append "" l.
Proof. induction l as [|a [|b l] IH]; [reflexivity|cbn; now rewrite sapp_nil|]. change (String.concat "" (a :: b :: l)) with (a ++ "" ++ String.concat "" (b :: l)). rewrite IH. reflexivity. Qed.
Lemma filter_map {A B} (f : A -> B) p l : filter p (map f l) = map f (filter (fun x => p (f x)) l).
Proof. induction l as [|a l IH]; [reflexivity|]. cbn [map filter]. destruct (p (f a)); cbn [map]; now rewrite IH. Qed.

Local Notation place folder := (map (fun p : string * content => (join folder (fst p), snd p))).
Section Folders.
Variable fig_folder : string.
Local Notation csv := (join fig_folder "csv/").
Local Notation fig := (join fig_folder "overall-results/").
(** The files are written to csv/ and overall-results/. *)
Definition plain (s : string) : Prop := no_slash s /\ s <> "" /\ s <> ".".
Lemma in_folders w T F : (forall p, In p T -> plain (fst p)) -> (forall p, In p F -> plain (fst p)) -> NoDup (app (map fst T) (map fst F)) ->
  room w (map (sub_path fig_folder) sub_folders) (map fst (app (put fig_folder "csv/" T) (put fig_folder "overall-results/" F))) ->
  exists w1 w2, io_each (map snd file_structure) (fun sub => need_dir (join fig_folder sub)) w = (w1, Ok tt) /\ writes (app (place csv T) (place fig F)) w1 = (w2, Ok tt) /\
    changes w w2 (map (sub_path fig_folder) sub_folders) (app (put fig_folder "csv/" T) (put fig_folder "overall-results/" F)).
Proof.
  intros PT PF ND RO. rewrite io_each_map. set (L := map (join fig_folder) (map snd file_structure)). set (k := app (place csv T) (place fig F)).
  assert (JB : forall sub, In sub sub_folders -> path_of (join fig_folder sub) = sub_path fig_folder sub /\ join fig_folder sub <> "").
  { intros sub S. apply join_below. unfold sub_folders in S. cbn [In] in S. repeat (destruct S as [<-|S]; [split; [right; discriminate|reflexivity]|]). destruct S. }
  assert (EF : map path_of L = map (sub_path fig_folder) sub_folders).
  { unfold L. rewrite map_map. change (map snd file_structure) with sub_folders. apply map_ext_in. intros sub S. now apply JB. }
  assert (JC := JB "csv/" ltac:(cbn; tauto)). assert (JF := JB "overall-results/" ltac:(cbn; tauto)).
  assert (FP : forall sub s, path_of (join fig_folder sub) = sub_path fig_folder sub /\ join fig_folder sub <> "" -> plain s -> path_of (join (join fig_folder sub) s) = file_in (sub_path fig_folder sub) s).
  { intros sub s [A B] [P1 [P2 P3]]. rewrite file_path by assumption. now rewrite A. }
  assert (EL : map (fun p => (path_of (fst p), snd p)) k = app (put fig_folder "csv/" T) (put fig_folder "overall-results/" F)).
  { unfold k, put. rewrite map_app, !map_map. f_equal; apply map_ext_in; intros p P; cbn [fst snd]; rewrite FP; auto. }
  assert (EP : map (fun p => path_of (fst p)) k = map fst (app (put fig_folder "csv/" T) (put fig_folder "overall-results/" F))) by (rewrite <- EL, map_map; reflexivity).
  destruct (report_ok w L k) as [w1 [w2 [E1 [E2 C]]]].
  - intros s X. unfold L in X. apply in_map_iff in X. destruct X as [sub [<- X]]. now apply JB.
  - now rewrite EF, EP.
  - intros q Q. unfold k in Q. apply in_app_or in Q. destruct Q as [Q|Q]; apply in_map_iff in Q; destruct Q as [p [<- P]]; cbn [fst].
    + exists csv, (fst p). split; [unfold L; apply in_map; cbn; tauto|]. rewrite (proj1 JC). apply FP; auto.
    + exists fig, (fst p). split; [unfold L; apply in_map; cbn; tauto|]. rewrite (proj1 JF). apply FP; auto.
  - rewrite EP. unfold put. rewrite map_app, !map_map. cbn [fst]. rewrite <- (map_map fst (file_in (sub_path fig_folder "csv/")) T), <- (map_map fst (file_in (sub_path fig_folder "overall-results/")) F).
    pose proof (distinct_files (app (map (pair (sub_path fig_folder "csv/")) (map fst T)) (map (pair (sub_path fig_folder "overall-results/")) (map fst F)))) as DF.
    rewrite !map_app, !map_map in DF. cbn [fst snd] in DF. rewrite !map_map. apply DF. exact ND.
  - exists w1, w2. rewrite EF, EL in C. auto.
Qed.
End Folders.

Section Overall.
Variable J : nat -> R -> R.
Variable str : R -> string.
Variable smooth : list R -> list fl -> R -> fl.
Variables (d : dcdata) (l : list dataset) (fig_folder : string) (vmax : R) (tn_max : option R) (f_range : option (R * R)).
Local Notation dc := (d_dc d).
Local Notation gs := (map g_of l).
Local Notation csv := (join fig_folder "csv/").
Local Notation fig := (join fig_folder "overall-results/").
Hypothesis HC : forall x, In x l -> complete x.
Hypothesis HL : (2 <= length (d_voltage d))%nat.
Hypothesis HD : length (d_current d) = length (d_voltage d).
Hypothesis HU : forall x, In x l -> length (u_current (pumped_of x)) = length (u_voltage (pumped_of x)).
Hypothesis HT : forall c, np_interp [vmax] (in_units (d_voltage d) (dc_vgap dc * 10 ^ 3)) (in_units (d_current d) (dc_igap dc * 10 ^ 6)) = Ok [c] -> on_curve (millivolts dc (d_voltage d)) (microamps dc (d_current d)) vmax c.

(** The files, as the program builds them. *)
Definition m_texts : list (string * content) :=
  [("dciv-data.txt", Text (dciv_text d)); ("recovered-emb.txt", Text (String.concat "" (map (emb_line str dc) gs))); ("dciv-info.txt", Text (info_text dc)); ("results.txt", Text (results_text str dc gs))].
Lemma texts_eq : m_texts = overall_texts str d l.
Proof.
  assert (S : forall n a b l m, a = b -> l = m -> (n, Text a) :: l = (n, Text b) :: m :> list (string * content)) by (intros; now subst).
  unfold m_texts, overall_texts, text_of, dciv_text, results_text, info_text, info_lines. rewrite !map_map. apply S; [|apply S; [|apply S; [|apply S; [|reflexivity]]]].
  - f_equal. apply map_ext. intros p. unfold curve_line. now rewrite !sapp_assoc.
  - f_equal. apply map_ext. intros x. unfold emb_line, circuit_line, g_of, source_mv, source_ohms, ohms, show_bool, yes_no. cbn [t_freq t_vt t_zt t_fit]. now rewrite !sapp_assoc.
  - rewrite lines_concat. cbn [map fold_right]. rewrite !sapp_assoc, sapp_nil. reflexivity.
  - f_equal. cbn [map]. rewrite ?map_map. apply (f_equal2 cons); [reflexivity|]. apply map_ext. intros x. unfold results_row, result_line, g_of, source_mv, source_ohms, ohms, show_bool, yes_no. cbn [t_freq t_vt t_zt t_fit t_tn t_gain t_alpha t_if_noise t_if_fit].
    cbn [String.concat]. rewrite !sapp_assoc. reflexivity.
Qed.
Definition m_first (c0 : item) (cs : list item) (top : R) : list (string * content) :=
  let freq := map t_freq gs in
  [("iv_curves.png", Picture [{| g_items := c0 :: cs; g_xlabel := "Voltage (mV)"; g_ylabel := "Current (uA)"; g_title := "LO (GHz)";
             g_xlim := (Some 0%R, Some vmax); g_ylim := (Some 0%R, Some top) |}]);
   ("rdyn.png", Picture [against_freq "Dynamic resistance ($\Omega$)" [Curve "" freq (Model_Plots.numbers (map t_rdyn gs))] (zoom f_range) (Some 0%R, None)]);
   ("noise_temperature.png", Picture [against_freq "Noise Temperature (K)" [Curve "" freq (map t_tn gs)] (zoom f_range) (tn_top tn_max)])].
Definition m_other (freq_t : list R) : list (string * content) :=
  let freq := map t_freq gs in let good := filter t_fit gs in let noisy := filter t_if_fit gs in
  let tn := Curve "" freq (map t_tn gs) in
  let impedance gs := [Curve "Real" (map t_freq gs) (map (fun g => FV (Re (t_zt g) * dc_rn dc)) gs); Curve "Imaginary" (map t_freq gs) (map (fun g => FV (Im (t_zt g) * dc_rn dc)) gs)] in
  [("noise_temperature_spline_fit.png", Picture [against_freq "Noise Temperature (K)" [tn; Curve "" freq_t (map (smooth freq (map t_tn gs)) freq_t)] (zoom f_range) (tn_top tn_max)]);
   ("noise_temperature_logy.png", Picture [against_freq "Noise Temperature (K)" [tn] (zoom f_range) (None, None)]);
   ("noise_temperature_and_gain.png", Picture [against_freq "Noise Temperature (K)" [tn] (zoom f_range) (tn_top tn_max);
             {| g_items := [Curve "" freq (Model_Plots.numbers (map t_gain gs))]; g_xlabel := ""; g_ylabel := "Gain (dB)"; g_title := ""; g_xlim := zoom f_range; g_ylim := (None, None) |}]);
   ("if_noise.png", Picture [against_freq "IF Noise Contribution (K)" [Curve "" (map t_freq noisy) (Model_Plots.numbers (map t_if_noise noisy))] (zoom f_range) (Some 0%R, None)]);
   ("embedding_impedance.png", Picture [against_freq "Embedding Impedance ($\Omega$)" (impedance good) (zoom f_range) (None, None)]);
   ("embedding_impedance_all.png", Picture [against_freq "Embedding Impedance ($\Omega$)" (impedance gs) (zoom f_range) (None, None)]);
   ("embedding_voltage.png", Picture [against_freq "Embedding Voltage (mV)" [Curve "" (map t_freq good) (map (fun g => fmul (fmul (t_vt g) (FV (dc_vgap dc))) (FV (10 ^ 3))) good)] (zoom f_range) (Some 0%R, None)]);
   ("drive_level.png", Picture [against_freq "Drive Level, $\alpha$" [Curve "" freq (Model_Plots.numbers (map t_alpha gs))] (zoom f_range) (Some 0%R, Some (12 / 10)%R)]);
   ("junction_impedance.png", Picture [against_freq "Junction Impedance ($\Omega$)"
     [Curve "Re$\{Z_J\}$" freq (map (fun g => part Re (dc_rn dc) (t_zw g)) gs); Curve "Im$\{Z_J\}$" freq (map (fun g => part Im (dc_rn dc) (t_zw g)) gs)] (zoom f_range) (None, None)])].

Lemma curves_ok : exists c0 cs top, np_interp [vmax] (in_units (d_voltage d) (dc_vgap dc * 10 ^ 3)) (in_units (d_current d) (dc_igap dc * 10 ^ 6)) = Ok [top] /\
  curve "" (in_units (d_voltage d) (dc_vgap dc * 10 ^ 3)) (Model_Plots.numbers (in_units (d_current d) (dc_igap dc * 10 ^ 6))) = Ok c0 /\
  mapM (fun u => curve (str (u_freq u)) (in_units (u_voltage u) (dc_vgap dc * 10 ^ 3)) (Model_Plots.numbers (in_units (u_current u) (dc_igap dc * 10 ^ 6)))) (map pumped_of l) = Ok cs /\
  Forall2 pictured (m_first c0 cs top) (first_figures str d l).
Proof.
  unfold np_interp. unfold in_units at 1 2 3. rewrite !map_length. destruct (Nat.eqb_spec (length (d_voltage d)) 0); [lia|]. rewrite HD, Nat.eqb_refl. cbn [negb guard bind map].
  assert (CO : forall s v i, length i = length v -> curve s (in_units v (dc_vgap dc * 10 ^ 3)) (Model_Plots.numbers (in_units i (dc_igap dc * 10 ^ 6))) = Ok (Curve s (in_units v (dc_vgap dc * 10 ^ 3)) (Model_Plots.numbers (in_units i (dc_igap dc * 10 ^ 6))))) by (intros s v i E; apply curve_ok; unfold in_units, Model_Plots.numbers; rewrite !map_length; now symmetry).
  exists (Curve "" (in_units (d_voltage d) (dc_vgap dc * 10 ^ 3)) (Model_Plots.numbers (in_units (d_current d) (dc_igap dc * 10 ^ 6)))).
  exists (map (fun x => Curve (str (Spec_Report.freq_of x)) (in_units (u_voltage (pumped_of x)) (dc_vgap dc * 10 ^ 3)) (Model_Plots.numbers (in_units (u_current (pumped_of x)) (dc_igap dc * 10 ^ 6)))) l).
  eexists. split; [reflexivity|]. split; [now apply CO|]. split.
  - clear HC HL. revert HU. induction l as [|x m IH]; intros U; [reflexivity|]. cbn [map mapM]. unfold Spec_Report.freq_of. rewrite CO by (apply U; now left). cbn [bind]. rewrite IH by (intros y Y; apply U; now right). reflexivity.
  - assert (CU : forall s v i, length i = length v -> Curve s (map fst (List.combine (millivolts dc v) (map FV (microamps dc i)))) (map snd (List.combine (millivolts dc v) (map FV (microamps dc i)))) = Curve s (in_units v (dc_vgap dc * 10 ^ 3)) (Model_Plots.numbers (in_units i (dc_igap dc * 10 ^ 6)))).
    { intros s v i E. rewrite unzip_l, unzip_r by (unfold millivolts, microamps; rewrite !map_length; now symmetry). reflexivity. }
    unfold m_first, first_figures. rewrite !map_map. repeat apply Forall2_cons; try apply Forall2_nil; (split; [reflexivity|]); eexists; (split; [reflexivity|]); (apply Forall2_cons; [|apply Forall2_nil]); cbn [fst snd]; (split; [reflexivity|]); unfold shows, against, against_freq; cbn [g_items map fst snd app].
    + rewrite app_nil_r. f_equal; [symmetry; now apply CU|]. rewrite map_map. apply map_ext_in. intros x X. cbn [fst snd]. symmetry. apply CU. now apply HU.
    + rewrite !map_map. unfold Model_Plots.numbers. rewrite map_map. reflexivity.
    + rewrite !map_map. reflexivity.
Qed.
Lemma other_ok freq_t : Forall2 pictured (m_other freq_t) (other_figures d l (map (fun t => (t, smooth (map Spec_Report.freq_of l) (map noise_of l) t)) freq_t)).
Proof.
  unfold m_other, other_figures. rewrite !filter_map. cbn [g_of t_fit t_if_fit]. rewrite !map_map. cbn [g_of t_freq t_tn].
  repeat apply Forall2_cons; try apply Forall2_nil; (split; [reflexivity|]); eexists; (split; [reflexivity|]); repeat apply Forall2_cons; try apply Forall2_nil; cbn [fst snd]; (split; [reflexivity|]); unfold shows, against, against_freq, Model_Plots.numbers; cbn [g_items map fst snd app]; rewrite ?map_map; cbn [fst snd]; try reflexivity. now rewrite map_id.
Qed.

Local Notation overall := (plot_overall_results str smooth d (map pumped_of l) fig_folder vmax tn_max f_range).
Lemma ascending_spec x : ascending x = true <-> Sorted Rle x.
Proof.
  induction x as [|a [|b x] IH]; [split; [constructor|reflexivity]|split; [repeat constructor|reflexivity]|]. change (ascending (a :: b :: x)) with (Rleb a b && ascending (b :: x)). rewrite andb_true_iff, IH. split.
  - intros [H1 H2]. constructor; [assumption|]. constructor. unfold Rleb in H1. now destruct (Rle_dec a b).
  - intros H. inversion H as [|p q H1 H2]; subst. inversion H2; subst. split; [unfold Rleb; now destruct (Rle_dec a b)|assumption].
Qed.
Lemma plain_all (T : list (string * content)) names : map fst T = names -> forallb (fun s => negb (existsb (Ascii.eqb slash) (list_ascii_of_string s)) && negb (String.eqb s "") && negb (String.eqb s ".")) names = true -> forall p, In p T -> plain (fst p).
Proof.
  intros <- H p P. rewrite forallb_forall in H. specialize (H _ (in_map fst _ _ P)). rewrite !andb_true_iff, !negb_true_iff in H. destruct H as [[H1 H2] H3]. apply String.eqb_neq in H2, H3. split; [|auto].
  clear H2 H3. induction (fst p) as [|c s IH]; [exact I|]. cbn [list_ascii_of_string existsb] in H1. apply orb_false_iff in H1. destruct H1 as [H1 H2]. cbn [no_slash]. split; [|now apply IH]. intros ->. now rewrite Ascii.eqb_refl in H1.
Qed.
Lemma distinct_names (x : list string) : (if list_eq_dec string_dec (nodup string_dec x) x then true else false) = true -> NoDup x.
Proof. destruct (list_eq_dec _ _ _) as [E|]; [|discriminate]. intros _. rewrite <- E. apply NoDup_nodup. Qed.

Lemma zoom_eq : zoom f_range = (option_map fst f_range, option_map snd f_range).
Proof. now destruct f_range. Qed.
Lemma ranges_all c0 cs top FT : map ranges_of (app (m_first c0 cs top) (m_other FT)) = overall_ranges vmax top tn_max f_range.
Proof. unfold m_first, m_other, overall_ranges. rewrite zoom_eq. reflexivity. Qed.
Lemma ranges_first c0 cs top : map ranges_of (m_first c0 cs top) = firstn 3 (overall_ranges vmax top tn_max f_range).
Proof. unfold m_first, overall_ranges. rewrite zoom_eq. reflexivity. Qed.
Lemma overall_all w : (3 < length l)%nat -> Sorted Rle (map Spec_Report.freq_of l) ->
  room w (map (sub_path fig_folder) sub_folders) (app (names_in fig_folder "csv/" (map fst (overall_texts str d l))) (names_in fig_folder "overall-results/" (map fst (app (first_figures str d l) (other_figures d l []))))) ->
  exists w' F lo hi, overall w = (w', Ok tt) /\
    In lo (map Spec_Report.freq_of l) /\ In hi (map Spec_Report.freq_of l) /\ (forall x, In x l -> (lo <= Spec_Report.freq_of x <= hi)%R) /\
    Forall2 pictured F (app (first_figures str d l) (other_figures d l (map (fun t => (t, smooth (map Spec_Report.freq_of l) (map noise_of l) t)) (linspace lo hi (Z.to_nat 1001))))) /\
    (exists top, on_curve (millivolts (d_dc d) (d_voltage d)) (microamps (d_dc d) (d_current d)) vmax top /\ map ranges_of F = overall_ranges vmax top tn_max f_range) /\
    changes w w' (map (sub_path fig_folder) sub_folders) (app (put fig_folder "csv/" (overall_texts str d l)) (put fig_folder "overall-results/" F)).
Proof.
  intros L4 SO RO. destruct curves_ok as [c0 [cs [top [E1 [E2 [E3 PF]]]]]].
  assert (EFR : map t_freq gs = map Spec_Report.freq_of l) by (rewrite map_map; reflexivity).
  assert (NE : map Spec_Report.freq_of l <> []) by (destruct l; [cbn in L4; lia|discriminate]).
  destruct (rmin_some _ NE) as [lo ELO]. destruct (amax_some _ NE) as [hi EHI]. destruct (rmin_ok _ _ ELO) as [I1 M1]. destruct (amax_ok _ _ EHI) as [I2 M2].
  set (FT := linspace lo hi (Z.to_nat 1001)). set (F := app (m_first c0 cs top) (m_other FT)).
  destruct (in_folders fig_folder w m_texts F) as [w1 [w2 [W1 [W2 CH]]]].
  - apply (plain_all _ _ eq_refl). reflexivity.
  - apply (plain_all _ _ eq_refl). reflexivity.
  - apply distinct_names. reflexivity.
  - unfold put. rewrite map_app, !map_map. cbn [fst]. unfold names_in in RO. rewrite !map_map in RO. rewrite texts_eq. exact RO.
  - exists w2, F, lo, hi. split; [|split; [assumption|split; [assumption|split; [|split; [apply Forall2_app; [exact PF|apply other_ok]|split; [exists top; split; [apply HT; assumption|apply ranges_all]|]]]]]].
    + unfold plot_overall_results. rewrite (io_step _ _ _ _ _ W1). rewrite gather_all by exact HC. unfold value at 1. rewrite (io_step _ _ w1 w1 gs eq_refl). rewrite E1. unfold value at 1. rewrite (io_step _ _ w1 w1 [top] eq_refl). cbn [nth].
      rewrite E2, E3, EFR, ELO, EHI. assert (FS : fit_spline smooth (map Spec_Report.freq_of l) (map t_tn gs) = Ok (smooth (map Spec_Report.freq_of l) (map t_tn gs))).
      { unfold fit_spline. rewrite map_length. destruct (Nat.ltb_spec 3 (length l)); [|lia]. rewrite (proj2 (ascending_spec _) SO). reflexivity. }
      rewrite FS. unfold F, m_texts, m_first, m_other, writes in W2. rewrite EFR in W2. try unfold FT in W2. cbn [map app fst snd io_each] in W2. clear - W2.
      unfold iobind, ret, value, save, write_text, effect in *. cbn [fst snd] in *.
      do 16 (match type of W2 with context [write_file ?w ?s ?c] => destruct (write_file w s c); [|discriminate] end). exact W2.
    + intros x X. assert (I : In (Spec_Report.freq_of x) (map Spec_Report.freq_of l)) by now apply in_map. split; auto.
    + rewrite texts_eq in CH. exact CH.
Qed.
(** Few frequencies, or not in order: the curve through the noise temperatures is refused. *)
Lemma overall_few w : (0 < length l <= 3)%nat \/ (0 < length l)%nat /\ ~ Sorted Rle (map Spec_Report.freq_of l) ->
  room w (map (sub_path fig_folder) sub_folders) (app (names_in fig_folder "csv/" (map fst (overall_texts str d l))) (names_in fig_folder "overall-results/" (map fst (first_figures str d l)))) ->
  exists w' F, overall w = (w', Err ValueError) /\ Forall2 pictured F (first_figures str d l) /\
    (exists top, on_curve (millivolts (d_dc d) (d_voltage d)) (microamps (d_dc d) (d_current d)) vmax top /\ map ranges_of F = firstn 3 (overall_ranges vmax top tn_max f_range)) /\
    changes w w' (map (sub_path fig_folder) sub_folders) (app (put fig_folder "csv/" (overall_texts str d l)) (put fig_folder "overall-results/" F)).
Proof.
  intros L4 RO. destruct curves_ok as [c0 [cs [top [E1 [E2 [E3 PF]]]]]].
  assert (EFR : map t_freq gs = map Spec_Report.freq_of l) by (rewrite map_map; reflexivity).
  assert (NE : map Spec_Report.freq_of l <> []) by (destruct l; [cbn in L4; lia|discriminate]).
  destruct (rmin_some _ NE) as [lo ELO]. destruct (amax_some _ NE) as [hi EHI].
  set (F := m_first c0 cs top).
  destruct (in_folders fig_folder w m_texts F) as [w1 [w2 [W1 [W2 CH]]]].
  - apply (plain_all _ _ eq_refl). reflexivity.
  - apply (plain_all _ _ eq_refl). reflexivity.
  - apply distinct_names. reflexivity.
  - unfold put. rewrite map_app, !map_map. cbn [fst]. unfold names_in in RO. rewrite !map_map in RO. rewrite texts_eq. exact RO.
  - exists w2, F. split; [|split; [exact PF|split; [exists top; split; [apply HT; assumption|apply ranges_first]|rewrite texts_eq in CH; exact CH]]].
    unfold plot_overall_results. rewrite (io_step _ _ _ _ _ W1). rewrite gather_all by exact HC. unfold value at 1. rewrite (io_step _ _ w1 w1 gs eq_refl). rewrite E1. unfold value at 1. rewrite (io_step _ _ w1 w1 [top] eq_refl). cbn [nth].
      rewrite E2, E3, EFR, ELO, EHI. assert (FS : fit_spline smooth (map Spec_Report.freq_of l) (map t_tn gs) = Err ValueError).
      { unfold fit_spline. rewrite map_length. destruct (Nat.ltb_spec 3 (length l)); [|reflexivity]. cbn [guard bind]. destruct (ascending _) eqn:A; [|reflexivity]. apply ascending_spec in A. exfalso. destruct L4 as [L4|[_ L4]]; [lia|now apply L4]. }
      rewrite FS. unfold F, m_texts, m_first, writes in W2. rewrite EFR in W2. try unfold FT in W2. cbn [map app fst snd io_each] in W2. clear - W2.
      unfold iobind, ret, value, save, write_text, effect in *. cbn [fst snd] in *.
      do 7 (match type of W2 with context [write_file ?w ?s ?c] => destruct (write_file w s c); [|discriminate] end). injection W2 as ->. reflexivity.
Qed.
End Overall.
(** Data without IF results, or without a recovered circuit. *)
Lemma overall_incomplete str smooth d l u m fig_folder vmax tn_max f_range w : (forall x, In x l -> complete x) -> u_if u = None \/ (exists n, u_if u = Some n) /\ u_recovered u = None ->
  room w (map (sub_path fig_folder) sub_folders) [] -> exists w', plot_overall_results str smooth d (app (map pumped_of l) (u :: m)) fig_folder vmax tn_max f_range w = (w', Err (match u_if u with None => AttributeError | Some _ => TypeError end)) /\
  changes w w' (map (sub_path fig_folder) sub_folders) [].
Proof.
  intros HC HU RO. destruct (in_folders fig_folder w [] []) as [w1 [w2 [W1 [W2 CH]]]]; [intros p []|intros p []|constructor|exact RO|]. injection W2 as <-. exists w1. split; [|exact CH].
  assert (E : mapM gather (app (map pumped_of l) (u :: m)) = Err (match u_if u with None => AttributeError | Some _ => TypeError end)).
  { clear RO W1 CH. induction l as [|x k IH].
    - cbn [map app mapM]. unfold gather at 1. destruct HU as [->|[[n ->] R]]; [reflexivity|]. unfold rec_results. rewrite R. reflexivity.
    - cbn [map app mapM]. destruct (HC x (or_introl eq_refl)) as [H1 H2]. unfold gather at 1, rec_results. rewrite H1, H2. cbn [bind]. rewrite IH by (intros y Y; apply HC; now right). reflexivity. }
  unfold plot_overall_results. rewrite (io_step _ _ _ _ _ W1). rewrite E. reflexivity.
Qed.

(** ** Imported data *)

Lemma imported_dc argsort minimize savgol spline dspline m0 f0 o0 d : dc_data argsort minimize savgol spline dspline m0 f0 o0 = Ok d -> (0 < dc_vgap (d_dc d))%R -> (0 < o_vmax o0)%R -> (2 <= o_npts o0)%nat ->
  (2 <= length (d_voltage d))%nat /\ length (d_current d) = length (d_voltage d).
Proof.
  intros HD HG HM HN. destruct (dc_grid_rising _ _ _ _ _ _ _ _ _ HD HG HM HN) as [_ L]. split; [|assumption]. destruct (dc_inv _ _ _ _ _ _ _ _ _ HD) as [A _]. destruct (dciv_vgap _ _ _ _ _ _ _ _ A) as [_ [_ [V _]]]. rewrite V. cbn [iv_options p_vmax p_npts]. now rewrite map_length, Proof_RespFn2.linspace_length.
Qed.
Lemma imported_pumped argsort savgol J d l : (forall x, In x l -> exists m hot cold o, pumped_data argsort savgol J m d hot cold o = Ok (pumped_of x)) -> forall x, In x l -> length (u_current (pumped_of x)) = length (u_voltage (pumped_of x)).
Proof. intros HI x X. destruct (HI x X) as [m [hot [cold [o P]]]]. destruct (pumped_inv _ _ _ _ _ _ _ _ _ P) as [f [_ [_ [_ [_ [B _]]]]]]. now destruct (iv_grid _ _ _ _ _ _ _ B). Qed.

Lemma imported_top argsort minimize savgol spline dspline m0 f0 o0 d vmax : dc_data argsort minimize savgol spline dspline m0 f0 o0 = Ok d -> (0 < dc_vgap (d_dc d))%R -> (0 < o_vmax o0)%R -> (2 <= o_npts o0)%nat ->
  forall c, np_interp [vmax] (in_units (d_voltage d) (dc_vgap (d_dc d) * 10 ^ 3)) (in_units (d_current d) (dc_igap (d_dc d) * 10 ^ 6)) = Ok [c] -> on_curve (millivolts (d_dc d) (d_voltage d)) (microamps (d_dc d) (d_current d)) vmax c.
Proof.
  intros HD HG HM HN c E. destruct (imported_dc _ _ _ _ _ _ _ _ _ HD HG HM HN) as [L2 LD]. destruct (dc_grid_rising _ _ _ _ _ _ _ _ _ HD HG HM HN) as [RV _]. apply interp1 in E. destruct E as [E _]. injection E as ->.
  apply interp_joined; [apply map_rising; [lra|assumption]| |].
  - unfold in_units, microamps, millivolts. rewrite !map_length. assumption.
  - unfold in_units, millivolts. rewrite map_length. lia.
Qed.
Lemma overall_report argsort minimize savgol J spline dspline str smooth m0 f0 o0 d l folder vmax tn_max f_range w :
  dc_data argsort minimize savgol spline dspline m0 f0 o0 = Ok d -> (0 < dc_vgap (d_dc d))%R -> (0 < o_vmax o0)%R -> (2 <= o_npts o0)%nat ->
  (forall x, In x l -> complete x /\ exists m hot cold o, pumped_data argsort savgol J m d hot cold o = Ok (pumped_of x)) -> (3 < length l)%nat -> Sorted Rle (map Spec_Report.freq_of l) ->
  let folders := map (sub_path folder) sub_folders in let texts := overall_texts str d l in
  room w folders (app (names_in folder "csv/" (map fst texts)) (names_in folder "overall-results/" (map fst (app (first_figures str d l) (other_figures d l []))))) ->
  exists w' F lo hi, plot_overall_results str smooth d (map pumped_of l) folder vmax tn_max f_range w = (w', Ok tt) /\
    In lo (map Spec_Report.freq_of l) /\ In hi (map Spec_Report.freq_of l) /\ (forall x, In x l -> (lo <= Spec_Report.freq_of x <= hi)%R) /\
    (let spline := map (fun t => (t, smooth (map Spec_Report.freq_of l) (map noise_of l) t)) (linspace lo hi (Z.to_nat 1001)) in
     Forall2 pictured F (app (first_figures str d l) (other_figures d l spline))) /\
    (exists top, on_curve (millivolts (d_dc d) (d_voltage d)) (microamps (d_dc d) (d_current d)) vmax top /\ map ranges_of F = overall_ranges vmax top tn_max f_range) /\
    changes w w' folders (app (put folder "csv/" texts) (put folder "overall-results/" F)).
Proof.
  intros HD HG HM HN HI. destruct (imported_dc _ _ _ _ _ _ _ _ _ HD HG HM HN) as [H1 H2]. intros H3 H4. apply overall_all; auto; [apply HI| |]. apply (imported_pumped argsort savgol J d l). intros x X. now apply HI. eapply imported_top; eassumption.
Qed.
Lemma overall_stops argsort minimize savgol J spline dspline str smooth m0 f0 o0 d l folder vmax tn_max f_range w :
  dc_data argsort minimize savgol spline dspline m0 f0 o0 = Ok d -> (0 < dc_vgap (d_dc d))%R -> (0 < o_vmax o0)%R -> (2 <= o_npts o0)%nat ->
  (forall x, In x l -> complete x /\ exists m hot cold o, pumped_data argsort savgol J m d hot cold o = Ok (pumped_of x)) -> (0 < length l)%nat -> (length l <= 3)%nat \/ ~ Sorted Rle (map Spec_Report.freq_of l) ->
  let folders := map (sub_path folder) sub_folders in let texts := overall_texts str d l in
  room w folders (app (names_in folder "csv/" (map fst texts)) (names_in folder "overall-results/" (map fst (first_figures str d l)))) ->
  exists w' F, plot_overall_results str smooth d (map pumped_of l) folder vmax tn_max f_range w = (w', Err ValueError) /\ Forall2 pictured F (first_figures str d l) /\
    (exists top, on_curve (millivolts (d_dc d) (d_voltage d)) (microamps (d_dc d) (d_current d)) vmax top /\ map ranges_of F = firstn 3 (overall_ranges vmax top tn_max f_range)) /\
    changes w w' folders (app (put folder "csv/" texts) (put folder "overall-results/" F)).
Proof.
  intros HD HG HM HN HI. destruct (imported_dc _ _ _ _ _ _ _ _ _ HD HG HM HN) as [H1 H2]. intros H3 H4. apply overall_few; auto; [apply HI| | |]. apply (imported_pumped argsort savgol J d l). intros x X. now apply HI. eapply imported_top; eassumption. destruct H4; [left; lia|now right].
Qed.

(** ** A measurement *)
Lemma room_blank folders targets : (forall t, In t targets -> snd t <> []) -> (forall t f, In t targets -> In f folders -> (length (snd f) < length (snd t))%nat) -> room blank folders targets.
Proof.
  intros H1 H2. split; [reflexivity|]. intros t T. split.
  - intros D. apply directory_in in D. destruct D as [D|D]; [now apply (H1 t T)|destruct D].
  - intros f F [_ [r E]]. specialize (H2 t f T F). rewrite E, app_length in H2. lia.
Qed.
Lemma measured_case minimize savgol dspline inv vmax : let o := shown (Some (RtoC 0)) (Some (25 / 100, 8 / 10)) None None in exists d u n r p a1 a2 a3 a4 a5,
  dc_data insertion_argsort minimize savgol (fun _ _ _ _ => 1%R) dspline file None o = Ok d /\ (0 < dc_vgap (d_dc d))%R /\ pumped_data insertion_argsort savgol besselJ (pumped_file besselJ) d (Some hot_file) (Some cold_file) o = Ok u /\
  u_freq u = 230%R /\ complete (u, n, r) /\ plot_if_noise d = Ok p /\
  plot_iv d u vmax = Ok a1 /\ plot_ivif d u vmax = Ok a2 /\ plot_noise_temp d u vmax = Ok a3 /\ plot_error_surface d u o = Ok a4 /\ plot_simulated besselJ inv d u o vmax = Ok a5.
Proof.
  intros o. destruct bessel_3_2 as (H0 & H1 & H2). destruct (shown_case minimize savgol besselJ H2 dspline (Some (RtoC 0)) (Some (25 / 100, 8 / 10)%R) None None (or_introl eq_refl)) as [d [u [n [r [D [U [G [_ [FG [DI [UI [UR [_ [_ [LH [HN [TN GN]]]]]]]]]]]]]]]]].
  destruct (shown_recovered minimize savgol besselJ H0 H1 H2 dspline (Some (RtoC 0)) (Some (25 / 100, 8 / 10)%R) None None (or_introl eq_refl)) as [d' [u' [r' [al [D' [U' [_ [_ [VP [_ [UR' [_ [_ [_ [_ [_ ZZ]]]]]]]]]]]]]]]].
  assert (E : d' = d) by (apply (f_equal (fun x => x)) in D; unfold o in *; congruence). subst d'. assert (E : u' = u) by congruence. subst u'. assert (E : r' = r) by congruence. subst r'. clear D' U' UR'.
  destruct (ZZ eq_refl) as [ZT [vt VT]]. assert (GP : (0 < dc_vgap (d_dc d))%R) by (rewrite G; lra).
  destruct (forced_note minimize savgol besselJ H0 H1 H2 dspline) as [d' [u' [a4 [X [Y [Z [text [D' [U' [S _]]]]]]]]]]. assert (E : d' = d) by congruence. subst d'. assert (E : u' = u) by congruence. subst u'. clear D' U'.
  destruct TN as [t TN]. assert (M : (0 < o_vmax o)%R) by (cbn; lra). assert (N2 : (2 <= o_npts o)%nat) by (cbn; lia). assert (F : o_freq o = Some 230%R) by reflexivity. assert (F0 : (0 < 230)%R) by lra. assert (T : (0 < o_t_cold o < o_t_hot o)%R) by (cbn; lra). pose proof insertion_sorts as IS.
  destruct (pumped_inv _ _ _ _ _ _ _ _ _ U) as [f [FF [UF _]]]. injection FF as <-.
  assert (A1 : exists a, plot_iv d u vmax = Ok a). { edestruct iv_figure as [a [top [A _]]]; try eassumption. exists a. exact A. }
  assert (A2 : exists a, plot_ivif d u vmax = Ok a). { edestruct ivif_figure as [a [b [top [A _]]]]; try eassumption. exists (a, b). exact A. }
  assert (A3 : exists a, plot_noise_temp d u vmax = Ok a). { eapply noise_temp_total; try eassumption. rewrite where_all by assumption. lia. }
  assert (A5 : exists a, plot_simulated besselJ inv d u o vmax = Ok a). { destruct (simulated_zero insertion_argsort minimize savgol besselJ (fun _ _ _ _ => 1%R) dspline inv file None o d (pumped_file besselJ) (Some hot_file) (Some cold_file) o u 230%R r vt vmax) as [a [y1 [y2 [A _]]]]; try assumption; [lra|]. exists a. exact A. }
  destruct A1 as [a1 A1]. destruct A2 as [a2 A2]. destruct A3 as [a3 A3]. destruct A5 as [a5 A5]. exists d, u, n, r, None, a1, a2, a3, a4, a5. unfold complete. repeat (split; [first [assumption | exact UF | split; assumption | unfold plot_if_noise; rewrite DI; reflexivity]|]). exact A5.
Qed.
Lemma leaky_report minimize savgol dspline : exists d a,
  dc_data insertion_argsort minimize savgol (fun _ _ _ _ => 1%R) dspline file None leaky = Ok d /\ plot_dciv d (o_vleak leaky) 5 = Ok a /\ plot_if_noise d = Ok None /\
  below "results" "dciv/" /\ room blank [sub_path "results" "dciv/"] [file_in (sub_path "results" "dciv/") "dciv.png"].
Proof.
  destruct (leaky_case minimize savgol dspline) as [d [a [_ [_ [_ [D [_ [A _]]]]]]]]. exists d, a. split; [exact D|]. split; [exact A|]. split; [|split].
  - destruct (dc_inv _ _ _ _ _ _ _ _ _ D) as [_ [_ [_ [_ DI]]]]. unfold plot_if_noise. now rewrite DI.
  - split; [left; discriminate|reflexivity].
  - apply room_blank; [intros t [<-|[]]; discriminate|intros t f [<-|[]] [<-|[]]; cbn; lia].
Qed.
Lemma blank_folders F T : room blank (map (sub_path "results") sub_folders) (app (names_in "results" "csv/" F) (names_in "results" "overall-results/" T)).
Proof.
  apply room_blank.
  - intros t I. apply in_app_or in I. destruct I as [I|I]; apply in_map_iff in I; destruct I as [s [<- _]]; discriminate.
  - intros t f I G. assert (L : length (snd f) = 2%nat). { apply in_map_iff in G. destruct G as [s [<- S]]. cbn in S. repeat (destruct S as [<-|S]; [reflexivity|]). destruct S. }
    rewrite L. apply in_app_or in I. destruct I as [I|I]; apply in_map_iff in I; destruct I as [s [<- _]]; cbn; lia.
Qed.
