(** Proofs about the options of the recovery, keyword arguments and summaries. *)
From Coq Require Import List ZArith Reals Lra Lia Bool Arith String.
From Coquelicot Require Import Coquelicot.
From Verif Require Import Base Float NumPy Model_QtCurrent Model_CleanData Model_RespFn Model_Tucker Model_IVData Model_ExpData Spec_QtCurrent Spec_CleanData Spec_RespFn Spec_IVData Spec_IFData Spec_ExpData Proof_NumPy Proof_Circuit Proof_RespFn2 Proof_IVModels Proof_IVLoad Proof_IVData Proof_IVCurve Proof_IFNoise Proof_Recover2 Proof_Recover3.
Import ListNotations.
Open Scope R_scope.
Local Notation length := List.length.
Local Notation Forall := List.Forall.

(** ** Dictionaries *)
Section Dict.
Variable V : Type.
Variable is_none : V -> bool.
Lemma dget_dset (d : dict V) k v k' : dget V (dset V d k v) k' = if String.eqb k' k then Some v else dget V d k'.
Proof.
  induction d as [|[k0 v0] d IH]; cbn [dset dget]; [reflexivity|]. destruct (String.eqb_spec k k0) as [->|N]; cbn [dget].
  - destruct (String.eqb k' k0); reflexivity.
  - rewrite IH. destruct (String.eqb_spec k' k0) as [->|N']; [|reflexivity]. destruct (String.eqb_spec k0 k); [congruence|reflexivity].
Qed.
Lemma dget_in (d : dict V) k : ~ In k (map fst d) -> dget V d k = None.
Proof.
  induction d as [|[k0 v0] d IH]; intros H; [reflexivity|]. cbn [dget map fst] in *. destruct (String.eqb_spec k k0) as [->|N]; [exfalso; apply H; now left|]. apply IH. intros K. apply H. now right.
Qed.
Lemma dget_update (kw d : dict V) k : NoDup (map fst kw) -> dget V (dupdate V d kw) k = match dget V kw k with Some v => Some v | None => dget V d k end.
Proof.
  revert d. induction kw as [|[k0 v0] kw IH]; intros d ND; [reflexivity|]. cbn [map fst] in ND. inversion ND as [|x l N1 N2]; subst. unfold dupdate in *. cbn [fold_left fst snd]. rewrite IH by assumption. cbn [dget].
  rewrite dget_dset. destruct (String.eqb_spec k k0) as [->|N]; [now rewrite dget_in|reflexivity].
Qed.

Lemma hget_update (h : heap V) a kw b : (a < length h)%nat -> hget V (hupdate V h a kw) b = if (b =? a)%nat then dupdate V (hget V h a) kw else hget V h b.
Proof.
  intros H. unfold hupdate, hget. destruct (Nat.lt_ge_cases b (length h)) as [L|G].
  - apply nth_error_nth. rewrite nth_error_list_set. destruct (Nat.eqb_spec b a) as [->|N].
    + destruct (Nat.ltb_spec a (length h)); [|lia]. reflexivity.
    + now apply nth_error_nth'.
  - destruct (Nat.eqb_spec b a); [lia|]. rewrite !nth_overflow; [reflexivity|assumption|now rewrite list_set_length].
Qed.
Lemma hupdate_length (h : heap V) a kw : length (hupdate V h a kw) = length h.
Proof. apply list_set_length. Qed.
Lemma hget_app (h : heap V) d b : hget V (h ++ [d]) b = if (b =? length h)%nat then d else hget V h b.
Proof.
  unfold hget. destruct (Nat.eqb_spec b (length h)) as [->|N]; [rewrite app_nth2, Nat.sub_diag by lia; reflexivity|]. destruct (Nat.lt_ge_cases b (length h)); [now apply app_nth1|]. rewrite !nth_overflow; [reflexivity|lia|rewrite app_length; cbn [List.length]; lia].
Qed.

Definition inv (params : dict V) (s : state V) : Prop :=
  (1 <= length (fst s))%nat /\ hget V (fst s) 0 = params /\ NoDup (snd s) /\ Forall (fun o => (1 <= o < length (fst s))%nat) (snd s).
Lemma forall_weaken n m (l : list nat) : (n <= m)%nat -> Forall (fun o => (1 <= o < n)%nat) l -> Forall (fun o => (1 <= o < m)%nat) l.
Proof. intros H. apply Forall_impl. intros; lia. Qed.
Lemma NoDup_app_one (l : list nat) a : NoDup l -> ~ In a l -> NoDup (l ++ [a]).
Proof. intros H N. apply NoDup_rev in H. rewrite <- (rev_involutive (l ++ [a])). apply NoDup_rev. rewrite rev_app_distr. cbn. constructor; [|assumption]. now rewrite <- in_rev. Qed.
(** The copy that a constructor makes. *)
Lemma copy_hget (h : heap V) kw b : (1 <= length h)%nat -> hget V (hupdate V (h ++ [hget V h 0]) (length h) kw) b = if (b =? length h)%nat then dupdate V (hget V h 0) kw else hget V h b.
Proof.
  intros H. rewrite hget_update by (rewrite app_length; cbn [List.length]; lia). rewrite !hget_app, Nat.eqb_refl. destruct (b =? length h)%nat; reflexivity.
Qed.
Lemma step_inv params s a : inv params s -> inv params (act V is_none s a) /\
  (forall n o, nth_error (snd s) n = Some o -> nth_error (snd (act V is_none s a)) n = Some o /\ (leaves n a -> hget V (fst (act V is_none s a)) o = hget V (fst s) o)).
Proof.
  destruct s as [h objs]. intros [H1 [H2 [H3 H4]]]. cbn [fst snd] in *. destruct a as [kw|kw|m k v]; cbn [act].
  - unfold dc_kwargs, deepcopy, params_id. unfold inv. cbn [fst snd]. rewrite hupdate_length, app_length. cbn [List.length].
    assert (FR : forall o, In o objs -> (o < length h)%nat) by (intros o Ho; rewrite Forall_forall in H4; apply H4 in Ho; lia). split.
    + split; [lia|]. rewrite copy_hget by assumption. destruct (Nat.eqb_spec 0 (length h)); [lia|]. split; [assumption|]. split.
      * apply NoDup_app_one; [assumption|]. intros K. apply FR in K. lia.
      * apply Forall_app. split; [apply (forall_weaken (length h)); [lia|assumption]|]. constructor; [lia|constructor].
    + intros n o E. assert (IO : In o objs) by (eapply nth_error_In; exact E). split.
      * rewrite nth_error_app1; [assumption|]. apply nth_error_Some. congruence.
      * intros _. rewrite copy_hget by assumption. destruct (Nat.eqb_spec o (length h)); [apply FR in IO; lia|reflexivity].
  - unfold pumped_kwargs, deepcopy, params_id. set (h1 := hupdate V (h ++ [hget V h 0]) (length h) kw).
    assert (FR : forall o, In o objs -> (o < length h)%nat) by (intros o Ho; rewrite Forall_forall in H4; apply H4 in Ho; lia).
    assert (L1 : length h1 = S (length h)) by (unfold h1; rewrite hupdate_length, app_length; cbn [List.length]; lia).
    assert (G1 : forall b, (b < length h)%nat -> hget V h1 b = hget V h b) by (intros b Hb; unfold h1; rewrite copy_hget by assumption; destruct (Nat.eqb_spec b (length h)); [lia|reflexivity]).
    assert (BAD : inv params (h1, objs) /\ (forall n o, nth_error objs n = Some o -> nth_error objs n = Some o /\ (leaves n (NewPumped V kw) -> hget V h1 o = hget V h o))).
    { split; [split; [cbn [fst]; lia|]; split; [cbn [fst]; rewrite G1 by lia; assumption|]; split; [assumption|]; cbn [fst snd]; apply (forall_weaken (length h)); [lia|assumption]|].
      intros n o E. split; [assumption|]. intros _. apply G1, FR. eapply nth_error_In; exact E. }
    destruct (dget V (hget V h1 (length h)) "freq") as [f|]; [|exact BAD]. destruct (is_none f); [exact BAD|].
    unfold inv. cbn [fst snd]. rewrite hupdate_length.
    assert (G2 : forall b, (b < length h)%nat -> hget V (hupdate V h1 (length h) [("freq"%string, f)]) b = hget V h b) by (intros b Hb; rewrite hget_update by lia; destruct (Nat.eqb_spec b (length h)); [lia|now apply G1]). split.
    + split; [lia|]. rewrite G2 by lia. split; [assumption|]. split.
      * apply NoDup_app_one; [assumption|]. intros K. apply FR in K. lia.
      * apply Forall_app. split; [apply (forall_weaken (length h)); [lia|assumption]|]. constructor; [lia|constructor].
    + intros n o E. assert (IO : In o objs) by (eapply nth_error_In; exact E). split.
      * rewrite nth_error_app1; [assumption|]. apply nth_error_Some. congruence.
      * intros _. now apply G2, FR.
  - destruct (nth_error objs m) as [o'|] eqn:EM; [|split; [now split|]; intros n o E; now split].
    assert (IO : (1 <= o' < length h)%nat) by (rewrite Forall_forall in H4; apply H4; eapply nth_error_In; exact EM).
    unfold inv. cbn [fst snd]. rewrite hupdate_length. split.
    + split; [assumption|]. rewrite hget_update by lia. destruct (Nat.eqb_spec 0 o'); [lia|]. now repeat split.
    + intros n o E. split; [assumption|]. intros LV. rewrite hget_update by lia. destruct (Nat.eqb_spec o o') as [->|N]; [|reflexivity].
      exfalso. assert (n = m) by (eapply NoDup_nth_error; [exact H3|apply nth_error_Some; congruence|congruence]). subst m. now apply (LV k v).
Qed.
Lemma run_inv params acts : forall s, inv params s -> inv params (run is_none s acts) /\
  (forall n o, nth_error (snd s) n = Some o -> Forall (leaves n) acts -> nth_error (snd (run is_none s acts)) n = Some o /\ hget V (fst (run is_none s acts)) o = hget V (fst s) o).
Proof.
  induction acts as [|a acts IH]; intros s I; [split; [assumption|]; now split|]. unfold run in *. cbn [fold_left]. destruct (step_inv params s a I) as [I' ST]. destruct (IH _ I') as [I'' R]. split; [assumption|].
  intros n o E LV. inversion LV as [|x l LA LL]; subst. destruct (ST n o E) as [E' G]. destruct (R n o E' LL) as [E'' G']. split; [assumption|]. rewrite G'. now apply G.
Qed.
Lemma start_inv params : inv params (start params).
Proof. split; [cbn; lia|]. split; [reflexivity|]. split; constructor. Qed.

Theorem defaults_unchanged params acts : hget V (fst (run is_none (start params) acts)) 0 = params.
Proof. destruct (run_inv params acts _ (start_inv params)) as [[_ [H _]] _]. exact H. Qed.
Theorem dc_own params acts kw later : NoDup (map fst kw) -> let s := run is_none (start params) acts in let n := length (snd s) in
  Forall (leaves n) later -> forall k, kwarg (run is_none s (NewDC V kw :: later)) n k = own_or_default params kw k.
Proof.
  intros ND s n LV k. destruct (run_inv params acts _ (start_inv params)) as [I _]. fold s in I. destruct (step_inv params s (NewDC V kw) I) as [I' _].
  destruct (run_inv params later _ I') as [_ R]. change (run is_none s (NewDC V kw :: later)) with (run is_none (act V is_none s (NewDC V kw)) later).
  destruct I as [H1 [H2 _]]. unfold n in *. clear n. clearbody s. destruct s as [h objs]. cbn [fst snd] in *. specialize (R (length objs) (length h)). cbn [act dc_kwargs deepcopy fst snd] in R. destruct R as [R1 R2]; [rewrite nth_error_app2, Nat.sub_diag by lia; reflexivity|exact LV|].
  unfold kwarg. cbn [act dc_kwargs deepcopy fst snd]. rewrite R1, R2. unfold params_id. rewrite copy_hget, Nat.eqb_refl, dget_update by assumption. unfold own_or_default. now rewrite H2.
Qed.
Theorem pumped_own params acts kw later f : NoDup (map fst kw) -> own_or_default params kw "freq" = Some f -> is_none f = false -> let s := run is_none (start params) acts in let n := length (snd s) in
  Forall (leaves n) later -> forall k, kwarg (run is_none s (NewPumped V kw :: later)) n k = own_or_default params kw k.
Proof.
  intros ND EF NF s n LV k. destruct (run_inv params acts _ (start_inv params)) as [I _]. fold s in I. destruct (step_inv params s (NewPumped V kw) I) as [I' _].
  destruct (run_inv params later _ I') as [_ R]. change (run is_none s (NewPumped V kw :: later)) with (run is_none (act V is_none s (NewPumped V kw)) later).
  destruct I as [H1 [H2 _]]. unfold n in *. clear n. clearbody s. destruct s as [h objs]. cbn [fst snd] in *. specialize (R (length objs) (length h)).
  assert (E : act V is_none (h, objs) (NewPumped V kw) = (hupdate V (hupdate V (h ++ [hget V h 0]) (length h) kw) (length h) [("freq"%string, f)], objs ++ [length h])).
  { cbn [act]. unfold pumped_kwargs, deepcopy, params_id. rewrite copy_hget, Nat.eqb_refl, dget_update, H2 by assumption. unfold own_or_default in EF. rewrite EF, NF. reflexivity. }
  rewrite E in *. cbn [fst snd] in R. destruct R as [R1 R2]; [rewrite nth_error_app2, Nat.sub_diag by lia; reflexivity|exact LV|].
  unfold kwarg. rewrite R1, R2. rewrite hget_update by (rewrite hupdate_length, app_length; cbn [List.length]; lia). rewrite Nat.eqb_refl. unfold dupdate at 1. cbn [fold_left fst snd]. rewrite dget_dset. rewrite copy_hget, Nat.eqb_refl, dget_update by assumption. unfold own_or_default in *. rewrite H2. destruct (String.eqb_spec k "freq") as [->|N]; [now rewrite EF|reflexivity].
Qed.
Theorem pumped_needs_freq params acts kw : NoDup (map fst kw) -> (own_or_default params kw "freq" = None \/ exists f, own_or_default params kw "freq" = Some f /\ is_none f = true) ->
  let s := run is_none (start params) acts in
  (exists e, snd (pumped_kwargs V is_none (fst s) kw) = Err e) /\ snd (run is_none s [NewPumped V kw]) = snd s.
Proof.
  intros ND F s. destruct (run_inv params acts _ (start_inv params)) as [[H1 [H2 _]] _]. fold s in H1, H2. clearbody s. destruct s as [h objs]. cbn [fst snd run fold_left act] in *.
  assert (E : exists e, snd (pumped_kwargs V is_none h kw) = Err e).
  { unfold pumped_kwargs, deepcopy, params_id. rewrite copy_hget, Nat.eqb_refl, dget_update, H2 by assumption. unfold own_or_default in F. destruct F as [->|[f [-> ->]]]; cbn [snd]; eauto. }
  split; [assumption|]. destruct E as [e E]. destruct (pumped_kwargs V is_none h kw) as [h' r]. cbn [snd] in *. now rewrite E.
Qed.
End Dict.

(** ** Options of the recovery *)
Section Options.
Variable J : nat -> R -> R.
Variables idc ikk : R -> R.
Theorem cut_options v i vph q lo hi : recover_zemb J idc ikk v i vph (with_cuts (with_range q (Some None)) (Some lo) (Some hi)) = recover_zemb J idc ikk v i vph (with_range q (Some (Some (lo, 1 - hi)))).
Proof. reflexivity. Qed.
Theorem cut_low_missing v i vph q hi : recover_zemb J idc ikk v i vph (with_cuts (with_range q (Some None)) None (Some hi)) = recover_zemb J idc ikk v i vph (with_range q None).
Proof. reflexivity. Qed.
Theorem cut_high_missing v i vph q lo : recover_zemb J idc ikk v i vph (with_cuts (with_range q (Some None)) lo None) = Err TypeError.
Proof. reflexivity. Qed.
Theorem cuts_ignored v i vph q g cl ch : g <> Some None -> recover_zemb J idc ikk v i vph (with_cuts (with_range q g) cl ch) = recover_zemb J idc ikk v i vph (with_range q g).
Proof. intros H. destruct g as [[r|]|]; [reflexivity|contradiction|reflexivity]. Qed.
(** Only the samples in the interval matter. *)
Theorem window_only v i v' i' vph q lo hi : length v = length i -> length v' = length i' -> range_used q lo hi -> step_samples vph lo hi v i = step_samples vph lo hi v' i' ->
  recover_zemb J idc ikk v i vph q = recover_zemb J idc ikk v' i' vph q.
Proof. intros L L' RU E. unfold recover_zemb. rewrite (range_limits _ _ _ RU). cbn [bind]. rewrite !step_eq by assumption. now rewrite E. Qed.
End Options.

(** ** Summaries *)
Theorem dc_summary_spec dc v i area vleak s : Spec_RespFn.increasing v -> length i = length v -> dc_summary dc v i area vleak = Ok s ->
  s_q s * dc_rn dc = dc_rsg dc /\ s_rna s = dc_rn dc * area / 10 ^ 12 /\ s_jc s * s_rna s = dc_vgap dc /\ dc_vgap dc <> 0 /\
  exists c, joined v i (nth 0 i 0) (nth (length v - 1) i 0) (vleak / dc_vgap dc) c /\ s_ileak s = c * dc_igap dc.
Proof.
  intros R L H. unfold dc_summary in H. apply bind_ok in H. destruct H as [q [Eq H]]. apply quot_ok in Eq. destruct Eq as [N1 ->]. apply bind_ok in H. destruct H as [jc [Ej H]]. apply quot_ok in Ej. destruct Ej as [N2 ->].
  apply bind_ok in H. destruct H as [t [Et H]]. apply quot_ok in Et. destruct Et as [N3 ->]. apply bind_ok in H. destruct H as [c [Ec H]]. apply ok_inj in H. subst s. cbn [s_q s_rna s_jc s_ileak].
  split; [field; assumption|]. split; [field|]. split; [field; split; [|assumption]; intros E; apply N2; rewrite E; ring|]. split; [assumption|].
  apply np_interp_inv in Ec. destruct Ec as [E1 [E2 E3]]. exists (np_interp1 v i (vleak / dc_vgap dc)). split; [apply interp_joined; try assumption; lia|]. rewrite E1. reflexivity.
Qed.

Lemma pyidx_high n k : (Z.of_nat n <= k)%Z -> pyidx n k = None.
Proof. intros H. unfold pyidx. repeat match goal with |- context [if ?b then _ else _] => destruct b eqn:? end; try reflexivity; exfalso; rewrite ?andb_true_iff, ?Z.leb_le, ?Z.ltb_lt in *; lia. Qed.
Lemma segment_firstn {A} (l : list A) a b : segment l a b = firstn (b - a) (skipn a l).
Proof.
  unfold segment, pyslice. rewrite !slice_pos by lia. rewrite !Nat2Z.id. destruct (Nat.le_gt_cases (length l) a) as [G|G].
  - rewrite (Nat.min_l (length l) a), (skipn_all2 l (n := a)), skipn_all, !firstn_nil by assumption. reflexivity.
  - rewrite (Nat.min_r (length l) a) by lia. destruct (Nat.le_gt_cases b (length l)); [now rewrite Nat.min_r by lia|]. rewrite Nat.min_l by lia. rewrite !firstn_all2; rewrite ?skipn_length; try reflexivity; lia.
Qed.
Lemma pow10_db g : 0 < g -> Rpower 10 (10 * log10 g / 10) = g.
Proof.
  intros H. unfold Rpower, log10. assert (L : 0 < ln 10) by (rewrite <- ln_1; apply ln_increasing; lra). replace (10 * (ln g / ln 10) / 10 * ln 10) with (ln g) by (field; lra). now apply exp_ln.
Qed.
Theorem if_summary_spec v i v_if tn gain idx rn s : length v = length i -> if_summary v i v_if tn gain idx rn = Ok s ->
  (idx < length tn)%nat /\ b_tn s = nth idx tn FNaN /\ (idx < length gain)%nat /\ nth idx gain FNaN = FV (b_gain s) /\ Rpower 10 (b_gdb s / 10) = b_gain s /\
  (idx < length v_if)%nat /\ b_v s = nth idx v_if 0 /\
  exists k a b, smallest (map (fun x => Rabs (x - b_v s)) v) k /\ best_line (firstn 10 (skipn k (List.combine v i))) a b /\ a <> 0 /\ b_zj s * a = rn.
Proof.
  intros L H. unfold if_summary in H. apply bind_ok in H. destruct H as [t [Et H]]. apply bind_ok in H. destruct H as [g0 [Eg H]]. apply bind_ok in H. destruct H as [g [Eg' H]]. destruct g0 as [g'| | |]; try discriminate. apply ok_inj in Eg'. subst g'.
  apply bind_ok in H. destruct H as [u [Gu H]]. destruct (Rltb_spec 0 g) as [PG|PG]; [|discriminate]. clear Gu u. apply bind_ok in H. destruct H as [vb [Ev H]]. apply bind_ok in H. destruct H as [k [Ek H]]. apply bind_ok in H. destruct H as [[a b] [Ep H]]. apply bind_ok in H. destruct H as [zj [Ez H]]. apply ok_inj in H. subst s. cbn [b_tn b_gain b_gdb b_v b_zj].
  assert (IX : forall A (l : list A) x d, pyget l (Z.of_nat idx) = Ok x -> (idx < length l)%nat /\ x = nth idx l d).
  { intros A l x d E. assert (K : (idx < length l)%nat). { unfold pyget in E. destruct (Nat.lt_ge_cases idx (length l)); [assumption|]. rewrite pyidx_high in E by lia. discriminate. }
    split; [assumption|]. rewrite (pyget_nth l (Z.of_nat idx) d) in E by lia. destruct (Z.ltb_spec (Z.of_nat idx) 0); [lia|]. rewrite Nat2Z.id in E. apply ok_inj in E. now symmetry. }
  destruct (IX _ _ _ FNaN Et) as [K1 E1], (IX _ _ _ FNaN Eg) as [K2 E2], (IX _ _ _ 0 Ev) as [K3 E3]. split; [assumption|]. split; [assumption|]. split; [assumption|]. split; [now symmetry|]. split; [now apply pow10_db|]. split; [assumption|]. split; [assumption|].
  assert (NE : map (fun x => Rabs (x - vb)) v <> []) by (intros E; apply map_eq_nil in E; subst v; discriminate). destruct (argmin_reals _ NE) as [k' [Ek' S]]. rewrite map_map in Ek'. rewrite Ek' in Ek. apply ok_inj in Ek. subst k'.
  exists k, a, b. split; [assumption|]. cbn [fst] in Ez. apply quot_ok in Ez. destruct Ez as [NA ->]. split; [|split; [assumption|field; assumption]].
  assert (SG : forall A (l : list A), segment l k (k + 10) = firstn 10 (skipn k l)) by (intros A l; rewrite segment_firstn; now replace (k + 10 - k)%nat with 10%nat by lia).
  rewrite !SG in Ep. destruct (combine_unzip v i L) as [C1 C2]. set (P := List.combine v i) in *. clearbody P. rewrite <- C1, <- C2 in Ep. rewrite !skipn_map, !firstn_map in Ep. apply polyfit_best in Ep. apply Ep.
Qed.
