(** More on C86 and C115: the title as it is printed, and how DCData makes its response functions. *)
From Coq Require Import List ZArith Reals String Ascii.
From Verif Require Import Base Round Model_Misc Spec_Misc Proof_Misc Model_RespFn Model_IVData Model_Objects Proof_Objects.
Import ListNotations.
Open Scope R_scope.

(** The title with its colour (see C102): stars, the text between two blanks, stars; as long as
    asked for, if the text fits. *)
Theorem C86_title_printed : forall colours text color total, exists pre post l r,
  title colours text color total = (pre ++ (many "*" l ++ " " ++ text ++ " " ++ many "*" r ++ newline) ++ post)%string /\
  (l <= r <= S l)%nat /\ Z.of_nat (l + 1 + String.length text + 1 + r) = Z.max total (Z.of_nat (String.length text) + 2) /\
  (match color with None => pre = ""%string /\ post = newline
   | Some c => (exists n, In (in_capitals c, n) styles /\ pre = escape_sequence n /\ post = (escape_sequence "0" ++ newline)%string) \/
               ((forall n, ~ In (in_capitals c, n) styles) /\ pre = ("'color' must be one of:" ++ newline ++ colours ++ newline)%string /\ post = (" " ++ c ++ newline)%string) end).
Proof.
  intros colours text color total. destruct (title_width text total) as [l [r [E [H1 H2]]]]. destruct (cprint_text colours (title_text text total) color) as [pre [post [E' H3]]].
  exists pre, post, l, r. unfold title. rewrite E', E. split; [reflexivity|]. split; [exact H1|]. split; [exact H2|exact H3].
Qed.
Print Assumptions C86_title_printed.
Example C86_title_case : title "" "QMix" None 13 = ("*** QMix ****" ++ newline ++ newline)%string.
Proof. reflexivity. Qed.

(** The response functions of DCData come from the measured curve up to 1.8 gap voltages, with the
    defaults of RespFnFromIVData and without a check of the interpolation; the second one is
    smeared.  (The case is that of C115.) *)
Theorem C115_built : forall argsort minimize savgol spline dspline m f o d,
  dc_data argsort minimize savgol spline dspline m f o = Ok d ->
  let options := fun s => {| max_npts_dc := 81; max_npts_kk := 101; max_interp_error := / 10 ^ 3; check_error := false; v_smear := s; kk_n := 50; spline_order := 3 |} in
  respfn_from_iv spline dspline (d_voltage d) (d_current d) (18 / 10) (options None) = Ok (d_resp d) /\
  respfn_from_iv spline dspline (d_voltage d) (d_current d) (18 / 10) (options (o_v_smear o)) = Ok (d_resp_smear d).
Proof.
  intros argsort minimize savgol spline dspline m f o d H. apply dc_inv in H. destruct H as [_ [_ [H1 [H2 _]]]].
  assert (E : 1 / 1000 = / 10 ^ 3) by (field_simplify; reflexivity). unfold resp_options, vlimit in *. rewrite E in *. now split.
Qed.
Print Assumptions C115_built.
