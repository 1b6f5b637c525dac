(** Proofs about imported data, parameters and the derived classes. *)
From Coq Require Import List ZArith Lia Lra Bool Arith Reals String.
From Coquelicot Require Import Complex.
From Verif Require Import Base Model_QtCurrent Float NumPy Proof_NumPy Model_MathFn Spec_MathFn Proof_Circuit Proof_IVModels
  Proof_Slope Proof_Filters Proof_KK Spec_RespFn Model_CleanData Proof_CleanData Model_IVModels Model_RespFn Proof_Nodes Proof_RespFn.
Import ListNotations.
Open Scope R_scope.
Local Notation length := List.length.

(** ** The initial voltages *)
Lemma linspace_length a b n : length (linspace a b n) = n.
Proof. unfold linspace. now rewrite map_length, seq_length. Qed.
Lemma linspace_nth a b n k : (k < n)%nat -> nth k (linspace a b n) 0 = a + INR k * ((b - a) / INR (n - 1)).
Proof. intros H. unfold linspace. now rewrite nth_map_seq. Qed.
Definition npts : nat := List.length VINIT.
Lemma npts_Z : Z.of_nat npts = 7001%Z.
Proof. unfold npts, VINIT. rewrite linspace_length. vm_compute. reflexivity. Qed.
Lemma vinit_nth k : (k < npts)%nat -> nth k VINIT 0 = INR k / 200.
Proof.
  intros H. unfold VINIT. unfold npts, VINIT in H. rewrite linspace_length in H. rewrite linspace_nth by assumption.
  match goal with |- context [INR (?n - 1)] => assert (E : INR (n - 1) = 7000) by (rewrite INR_IZR_INZ, Nat2Z.inj_sub by lia; vm_compute Z.of_nat; reflexivity) end.
  rewrite E. field.
Qed.
Lemma vinit_length : length VINIT = npts.
Proof. reflexivity. Qed.
#[global] Opaque VINIT npts.
Lemma npts_big : (7001 <= Z.of_nat npts)%Z.
Proof. rewrite npts_Z. lia. Qed.
Lemma npts_R : INR npts = 7001.
Proof. rewrite INR_IZR_INZ, npts_Z. reflexivity. Qed.
Lemma vinit_last : nth (npts - 1) VINIT 0 = 35.
Proof. pose proof npts_Z. rewrite vinit_nth by lia. rewrite minus_INR by lia. rewrite npts_R. simpl. lra. Qed.
Lemma vinit_grid : grid_ok VINIT.
Proof.
  pose proof npts_Z as E. unfold grid_ok. rewrite vinit_length. assert (S : forall k, (S k < npts)%nat -> nth (S k) VINIT 0 - nth k VINIT 0 = 1 / 200).
  { intros k Hk. rewrite !vinit_nth by lia. rewrite S_INR. lra. }
  repeat split.
  - lia.
  - rewrite vinit_nth by lia. simpl. lra.
  - rewrite vinit_last. lra.
  - rewrite S by assumption. lra.
  - rewrite S by assumption. lra.
  - intros k Hk. rewrite S by assumption. replace (npts - 1)%nat with (Datatypes.S (npts - 2)) by lia. rewrite S by lia. rewrite Rminus_eq_0, Rabs_R0. apply tiny.
Qed.

(** ** Interpolation of data *)
Lemma filter_none {A} (g : A -> bool) l : (forall a, In a l -> g a = false) -> filter g l = [].
Proof. induction l as [|a l IH]; intros H; [reflexivity|]. simpl. rewrite (H a (or_introl eq_refl)). apply IH. intros; apply H; now right. Qed.
Lemma filter_count xp x : forall k, (k <= length xp)%nat -> (forall i, (i < k)%nat -> nth i xp 0 <= x) -> (forall i, (k <= i)%nat -> (i < length xp)%nat -> x < nth i xp 0) ->
  length (filter (fun a => Rleb a x) xp) = k.
Proof.
  induction xp as [|a xp IH]; intros k Hk A B; [simpl in *; lia|]. destruct k as [|k].
  - assert (forall c, In c (a :: xp) -> x < c). { intros c Hc. destruct (In_nth _ _ 0 Hc) as [i [Hi <-]]. apply B; lia. }
    rewrite filter_none; [reflexivity|]. intros c Hc. specialize (H c Hc). destruct (Rleb_spec c x); [lra|reflexivity].
  - cbn [filter]. destruct (Rleb_spec a x) as [L|L]; [|specialize (A 0%nat ltac:(lia)); simpl in A; lra]. cbn [List.length]. f_equal. apply IH.
    + simpl in Hk. lia.
    + intros i Hi. exact (A (S i) ltac:(lia)).
    + intros i H1 H2. exact (B (S i) ltac:(lia) ltac:(simpl; lia)).
Qed.
Lemma interp_between xp fp x i : increasing xp -> length fp = length xp -> (S i < length xp)%nat -> nth i xp 0 <= x < nth (S i) xp 0 ->
  np_interp1 xp fp x = nth i fp 0 + (nth (S i) fp 0 - nth i fp 0) * (x - nth i xp 0) / (nth (S i) xp 0 - nth i xp 0).
Proof.
  intros I L H [A B]. unfold np_interp1. rewrite (filter_count xp x (S i)); [|lia| |].
  - cbv zeta. destruct (Nat.eqb_spec (S i) (length xp)); [lia|]. specialize (I i (S i) ltac:(lia) H). field. lra.
  - intros j Hj. destruct (Nat.eq_dec j i) as [->|]; [assumption|]. specialize (I j i ltac:(lia) ltac:(lia)). lra.
  - intros j H1 H2. destruct (Nat.eq_dec j (S i)) as [->|]; [assumption|]. specialize (I (S i) j ltac:(lia) ltac:(lia)). lra.
Qed.
Lemma interp_at xp fp i : increasing xp -> length fp = length xp -> (i < length xp)%nat -> np_interp1 xp fp (nth i xp 0) = nth i fp 0.
Proof.
  intros I L H. destruct (Nat.eq_dec (S i) (length xp)) as [E|N].
  - unfold np_interp1. rewrite (filter_count xp _ (S i)); [|lia| |intros; lia].
    + cbv zeta. rewrite E, Nat.eqb_refl. reflexivity.
    + intros j Hj. destruct (Nat.eq_dec j i) as [->|]; [lra|]. specialize (I j i ltac:(lia) ltac:(lia)). lra.
  - rewrite (interp_between xp fp _ i I L ltac:(lia)) by (split; [lra|apply I; lia]). pose proof (I i (S i) ltac:(lia) ltac:(lia)). field. lra.
Qed.
Lemma interp_below xp fp x : increasing xp -> length fp = length xp -> (1 <= length xp)%nat -> x <= nth 0 xp 0 -> np_interp1 xp fp x = nth 0 fp 0.
Proof.
  intros I L H B. destruct (Req_dec x (nth 0 xp 0)) as [->|N]; [apply interp_at; try assumption; lia|].
  unfold np_interp1. rewrite (filter_count xp x 0); [reflexivity|lia|intros; lia|]. intros j _ Hj. destruct (Nat.eq_dec j 0) as [->|]; [lra|]. specialize (I 0%nat j ltac:(lia) Hj). lra.
Qed.
Lemma interp_closed xp fp x i : increasing xp -> length fp = length xp -> (S i < length xp)%nat -> nth i xp 0 <= x <= nth (S i) xp 0 ->
  np_interp1 xp fp x = nth i fp 0 + (nth (S i) fp 0 - nth i fp 0) * (x - nth i xp 0) / (nth (S i) xp 0 - nth i xp 0).
Proof.
  intros I L H [A B]. destruct (Req_dec x (nth (S i) xp 0)) as [->|N]; [|apply interp_between; try assumption; lra].
  rewrite interp_at by (assumption || lia). pose proof (I i (S i) ltac:(lia) H). field. lra.
Qed.

(** The data that is used is a segment. *)
Lemma filter_segment {A} (g : A -> bool) d : forall (l : list A) a b, (a <= b)%nat -> (b <= length l)%nat ->
  (forall i, (i < length l)%nat -> g (nth i l d) = ((a <=? i) && (i <? b))%nat) -> filter g l = firstn (b - a) (skipn a l).
Proof.
  induction l as [|x l IH]; intros a b AB BL H; [simpl in *; replace b with 0%nat by lia; now rewrite skipn_nil, firstn_nil|].
  assert (H0 := H 0%nat ltac:(simpl; lia)). cbn [nth] in H0. assert (HS : forall i, (i < length l)%nat -> g (nth i l d) = ((a <=? S i) && (S i <? b))%nat) by (intros i Hi; exact (H (S i) ltac:(simpl; lia))).
  cbn [filter]. destruct a as [|a].
  - destruct b as [|b].
    + rewrite H0. cbn. rewrite filter_none; [reflexivity|]. intros y Hy. destruct (In_nth _ _ d Hy) as [i [Hi <-]]. rewrite HS by assumption. reflexivity.
    + rewrite H0. change (0 <=? 0)%nat with true. change (0 <? S b)%nat with true. cbn [andb]. rewrite Nat.sub_0_r. cbn [skipn firstn]. f_equal.
      rewrite (IH 0%nat b); [now rewrite Nat.sub_0_r|lia|simpl in BL; lia|]. intros i Hi. rewrite HS by assumption. reflexivity.
  - rewrite H0. change (S a <=? 0)%nat with false. cbn [andb skipn]. destruct b as [|b]; [lia|]. change (S b - S a)%nat with (b - a)%nat. apply IH; [lia|simpl in BL; lia|]. intros i Hi. rewrite HS by assumption. reflexivity.
Qed.
Lemma unzip_ok {A B} (a : list A) (b : list B) : length a = length b -> map fst (List.combine a b) = a /\ map snd (List.combine a b) = b.
Proof. revert b; induction a; destruct b; simpl; intros H; try discriminate; [now split|]. injection H as H. destruct (IHa _ H) as [-> ->]. now split. Qed.
Lemma segment_fst {A B} (a : list A) (b : list B) n f : length a = length b ->
  map fst (firstn n (skipn f (List.combine a b))) = firstn n (skipn f a) /\ map snd (firstn n (skipn f (List.combine a b))) = firstn n (skipn f b).
Proof. intros H. destruct (unzip_ok a b H) as [E1 E2]. rewrite <- !firstn_map, <- !skipn_map, E1, E2. now split. Qed.

Lemma pair_nth (P : list (R * R)) i : fst (nth i P (0, 0)) = nth i (map fst P) 0 /\ snd (nth i P (0, 0)) = nth i (map snd P) 0.
Proof. split; symmetry; [exact (map_nth fst P (0, 0) i)|exact (map_nth snd P (0, 0) i)]. Qed.
Section Import.
Variables (v c : list R) (vmax : R) (f l : nat).
Hypothesis I : increasing v.
Hypothesis HC : length c = length v.
Hypothesis HV : vmax <= 50.
Hypothesis HFL : (f <= l)%nat.
Hypothesis HL : (l < length v)%nat.
Hypothesis HU : forall i, (i < length v)%nat -> (0 < nth i v 0 < vmax <-> (f <= i <= l)%nat).
Let n := (l - f + 1)%nat.
Let xs := firstn n (skipn f v).
Let ys := firstn n (skipn f c).
Lemma seg_length : length xs = n /\ length ys = n.
Proof. unfold xs, ys. rewrite !firstn_length, !skipn_length. unfold n. lia. Qed.
Lemma seg_nth (a : list R) j : (j < n)%nat -> nth j (firstn n (skipn f a)) 0 = nth (f + j) a 0.
Proof. intros H. rewrite nth_firstn by assumption. apply nth_skipn. Qed.
Lemma selected : select (map (fun v => Rltb 0 v && Rltb v vmax)%bool v) v = Ok xs /\ select (map (fun v => Rltb 0 v && Rltb v vmax)%bool v) c = Ok ys.
Proof.
  destruct (unzip_ok v c (eq_sym HC)) as [E1 E2]. set (P := List.combine v c) in *. set (g := fun v => (Rltb 0 v && Rltb v vmax)%bool).
  assert (LP : length P = length v) by (unfold P; rewrite combine_length; lia).
  assert (E : map g v = map (fun p => g (fst p)) P) by (rewrite <- E1 at 1; apply map_map). rewrite E.
  assert (S : filter (fun p => g (fst p)) P = firstn n (skipn f P)).
  { rewrite (filter_segment _ (0, 0) P f (l + 1)); [unfold n; f_equal; lia|lia|lia|]. intros i Hi. rewrite LP in Hi.
    rewrite (proj1 (pair_nth P i)), E1. specialize (HU i Hi). unfold g.
    destruct (Nat.leb_spec f i), (Nat.ltb_spec i (l + 1)); cbn [andb].
    - destruct (proj2 HU ltac:(lia)). now rewrite !Rltb_t.
    - destruct (Rltb_spec 0 (nth i v 0)), (Rltb_spec (nth i v 0) vmax); try reflexivity. exfalso. assert (0 < nth i v 0 < vmax) by lra. apply HU in H1. lia.
    - destruct (Rltb_spec 0 (nth i v 0)), (Rltb_spec (nth i v 0) vmax); try reflexivity. exfalso. assert (0 < nth i v 0 < vmax) by lra. apply HU in H1. lia.
    - destruct (Rltb_spec 0 (nth i v 0)), (Rltb_spec (nth i v 0) vmax); try reflexivity. exfalso. assert (0 < nth i v 0 < vmax) by lra. apply HU in H1. lia. }
  pose proof (segment_fst v c n f (eq_sym HC)) as [F1 F2]. fold P in F1, F2.
  split; [rewrite <- E1 at 1|rewrite <- E2]; rewrite select_map, S; f_equal; [exact F1|exact F2].
Qed.
Let xp := xs ++ [50].
Let fp := ys ++ [50 + (nth l c 0 - nth l v 0)].
Lemma xp_low j : (j < n)%nat -> nth j xp 0 = nth (f + j) v 0 /\ nth j fp 0 = nth (f + j) c 0.
Proof.
  intros H. destruct seg_length as [L1 L2]. unfold xp, fp. rewrite !app_nth1 by lia. unfold xs, ys. now rewrite !seg_nth.
Qed.
Lemma xp_top : nth n xp 0 = 50 /\ nth n fp 0 = 50 + (nth l c 0 - nth l v 0).
Proof. destruct seg_length as [L1 L2]. unfold xp, fp. rewrite !app_nth2, L1, L2, Nat.sub_diag by lia. now split. Qed.
Lemma xp_length : length xp = S n /\ length fp = S n.
Proof. destruct seg_length as [L1 L2]. unfold xp, fp. rewrite !app_length, L1, L2. simpl. lia. Qed.
Lemma xp_increasing : increasing xp.
Proof.
  intros i j A B. rewrite (proj1 xp_length) in B. rewrite (proj1 (xp_low i ltac:(lia))). destruct (Nat.eq_dec j n) as [->|N].
  - rewrite (proj1 xp_top). destruct (proj2 (HU (f + i) ltac:(unfold n in *; lia)) ltac:(unfold n in *; lia)). lra.
  - rewrite (proj1 (xp_low j ltac:(lia))). apply I; unfold n in *; lia.
Qed.
Lemma import_eq : import_iv v c vmax = Ok (VINIT, map (np_interp1 xp fp) VINIT).
Proof.
  unfold import_iv. cbv zeta. destruct selected as [-> E]. rewrite E. cbn [bind]. destruct seg_length as [L1 L2].
  assert (G : forall a : list R, length a = length v -> pyget (firstn n (skipn f a)) (-1) = Ok (nth l a 0)).
  { intros a La. assert (LA : length (firstn n (skipn f a)) = n) by (rewrite firstn_length, skipn_length; unfold n; lia). rewrite (pyget_nth _ _ 0) by (rewrite LA; unfold n; lia). change (-1 <? 0)%Z with true. cbv iota. rewrite LA.
    rewrite seg_nth by (unfold n; lia). do 2 f_equal. unfold n. lia. }
  unfold ys at 1. rewrite G by assumption. cbn [bind]. unfold xs at 1. rewrite G by reflexivity. cbn [bind]. unfold np_interp. fold xp fp. destruct xp_length as [X1 X2]. rewrite X1, X2, Nat.eqb_refl. reflexivity.
Qed.
Lemma import_spec : exists i, import_iv v c vmax = Ok (VINIT, i) /\ length i = length VINIT /\
  forall k, (k < length VINIT)%nat ->
    let x := INR k / 200 in
    (x <= nth f v 0 -> nth k i 0 = nth f c 0) /\
    (forall j, (f <= j < l)%nat -> nth j v 0 <= x <= nth (S j) v 0 -> nth k i 0 = nth j c 0 + (nth (S j) c 0 - nth j c 0) * (x - nth j v 0) / (nth (S j) v 0 - nth j v 0)) /\
    (nth l v 0 <= x -> nth k i 0 = x + (nth l c 0 - nth l v 0)).
Proof.
  eexists. split; [apply import_eq|]. split; [apply map_length|]. intros k Hk x.
  rewrite (nth_indep (map (np_interp1 xp fp) VINIT) 0 (np_interp1 xp fp 0)) by now rewrite map_length. rewrite map_nth. rewrite vinit_nth by assumption. fold x.
  pose proof xp_increasing as IX. pose proof xp_length as [X1 X2]. pose proof (proj1 (xp_low 0 ltac:(unfold n; lia))) as E0. rewrite Nat.add_0_r in E0. repeat split.
  - intros H. rewrite interp_below; [|assumption|lia|lia|lra]. rewrite (proj2 (xp_low 0 ltac:(unfold n; lia))). now rewrite Nat.add_0_r.
  - intros j Hj H. destruct (xp_low (j - f) ltac:(unfold n; lia)) as [A1 A2], (xp_low (S (j - f)) ltac:(unfold n; lia)) as [B1 B2]. replace (f + (j - f))%nat with j in A1, A2 by lia. replace (f + S (j - f))%nat with (S j) in B1, B2 by lia.
    rewrite (interp_closed xp fp x (j - f)); [now rewrite A1, A2, B1, B2|assumption|lia|rewrite X1; unfold n; lia|]. now rewrite A1, B1.
  - intros H. destruct (xp_low (n - 1) ltac:(unfold n; lia)) as [A1 A2], xp_top as [B1 B2]. replace (f + (n - 1))%nat with l in A1, A2 by (unfold n; lia).
    assert (XB : x <= 35). { unfold x. assert (INR k <= 7000). { replace 7000 with (INR (npts - 1)) by (rewrite minus_INR by (pose proof npts_Z; lia); rewrite npts_R; simpl; lra). apply le_INR. rewrite vinit_length in Hk. lia. } lra. }
    assert (SN : S (n - 1) = n) by (unfold n; lia). rewrite (interp_closed xp fp x (n - 1)); [rewrite SN, A1, A2, B1, B2|assumption|lia|lia|rewrite SN, A1, B1; lra].
    destruct (proj2 (HU l HL) ltac:(lia)). field. lra.
Qed.
End Import.
Lemma import_empty v c vmax : length c = length v -> (forall i, (i < length v)%nat -> ~ (0 < nth i v 0 < vmax)) -> import_iv v c vmax = Err IndexError.
Proof.
  intros HC H. unfold import_iv. cbv zeta. destruct (unzip_ok v c (eq_sym HC)) as [E1 E2]. set (P := List.combine v c) in *. set (g := fun v => (Rltb 0 v && Rltb v vmax)%bool).
  assert (E : map g v = map (fun p => g (fst p)) P) by (rewrite <- E1 at 1; apply map_map). rewrite E. rewrite <- E2. rewrite select_map. cbn [bind].
  rewrite filter_none; [cbn [map bind]|].
  - assert (S1 : select (map (fun p => g (fst p)) P) v = Ok (map fst (filter (fun p => g (fst p)) P))) by (rewrite <- E1; apply select_map). rewrite S1. reflexivity.
  - intros [a b] Hp. apply in_combine_l in Hp. destruct (In_nth _ _ 0 Hp) as [i [Hi <-]]. specialize (H i Hi). unfold g. cbn [fst]. destruct (Rltb_spec 0 (nth i v 0)), (Rltb_spec (nth i v 0) vmax); try reflexivity. exfalso. apply H. lra.
Qed.
Lemma import_mismatch v c vmax : length c <> length v -> import_iv v c vmax = Err IndexError.
Proof. intros H. unfold import_iv. cbv zeta. unfold select at 1. rewrite map_length. destruct (Nat.eqb_spec (length v) (length c)); [congruence|reflexivity]. Qed.

(** ** Parameters *)
Lemma lookup_dset d k v k' : lookup (dset d k v) k' = if String.eqb k' k then Some v else lookup d k'.
Proof.
  induction d as [|[k1 v1] d IH]; simpl; [reflexivity|]. destruct (String.eqb_spec k k1) as [->|N]; simpl.
  - now destruct (String.eqb_spec k' k1).
  - destruct (String.eqb_spec k' k1) as [->|N1]; [|apply IH]. destruct (String.eqb_spec k1 k); [congruence|reflexivity].
Qed.
Lemma lookup_notin d k : ~ In k (map fst d) -> lookup d k = None.
Proof. induction d as [|[k1 v1] d IH]; simpl; intros H; [reflexivity|]. destruct (String.eqb_spec k k1); [exfalso; apply H; now left|]. apply IH. tauto. Qed.
Lemma lookup_update e : NoDup (map fst e) -> forall d k, lookup (update d e) k = match lookup e k with Some v => Some v | None => lookup d k end.
Proof.
  unfold update. induction e as [|[k1 v1] e IH]; intros N d k; [reflexivity|]. simpl in *. inversion N as [|? ? N1 N2]; subst. rewrite IH by assumption. rewrite lookup_dset.
  destruct (String.eqb_spec k k1) as [->|]; [|reflexivity]. now rewrite lookup_notin.
Qed.
Lemma dset_keys d k v : NoDup (map fst d) -> NoDup (map fst (dset d k v)) /\ (forall x, In x (map fst (dset d k v)) <-> In x (map fst d) \/ x = k).
Proof.
  induction d as [|[k1 v1] d IH]; simpl; intros N.
  - split; [repeat constructor; tauto|]. intros x. intuition.
  - inversion N as [|? ? N1 N2]; subst. destruct (String.eqb_spec k k1) as [->|NE]; simpl.
    + split; [now constructor|]. intros x. intuition.
    + destruct (IH N2) as [A B]. split; [constructor; [rewrite B; intros [K|K]; [tauto|congruence]|assumption]|]. intros x. rewrite B. intuition.
Qed.
Lemma update_keys e : forall d, NoDup (map fst d) -> NoDup (map fst (update d e)).
Proof. unfold update. induction e as [|[k v] e IH]; intros d N; [assumption|]. simpl. apply IH. now apply dset_keys. Qed.
Lemma default_keys kw a b : NoDup (map fst (default_params kw a b)).
Proof. unfold default_params. apply update_keys. simpl. repeat constructor; simpl; intuition discriminate. Qed.
Definition base_table (a b : Z) : dict := [("max_npts_dc", VInt a); ("max_npts_kk", VInt b); ("max_interp_error", VReal (1 / 1000)); ("check_error", VBool false);
          ("verbose", VBool true); ("v_smear", VNone); ("kk_n", VInt 50); ("spline_order", VInt 3)]%string.
Lemma default_lookup kw a b k : NoDup (map fst kw) -> lookup (default_params kw a b) k = match lookup kw k with Some v => Some v | None => lookup (base_table a b) k end.
Proof. intros N. unfold default_params. fold (base_table a b). now apply lookup_update. Qed.
Lemma base_same a b a' b' k : match lookup (base_table a b) k with Some v => Some v | None => lookup (base_table a' b') k end = lookup (base_table a b) k.
Proof. unfold base_table. cbn [lookup]. repeat (destruct (String.eqb k _); [reflexivity|]). reflexivity. Qed.
Lemma class_lookup cl kw k : NoDup (map fst kw) -> lookup (class_params cl kw) k = match lookup kw k with Some v => Some v
  | None => lookup (match cl with FromIVData => base_table 81 101 | Exponential => base_table 101 251 | _ => base_table 101 151 end) k end.
Proof.
  intros N. destruct cl; cbn [class_params]; rewrite ?default_lookup; auto using default_keys; destruct (lookup kw k); try reflexivity; apply base_same.
Qed.

(** ** The error check *)
Lemma check_interp_spec v c f b : length c = length v -> (exists k, (k < length v)%nat /\ -34 < nth k v 0 < 34) ->
  (check_interp v c f b = Ok tt <-> forall k, (k < length v)%nat -> -34 < nth k v 0 < 34 -> nth k c 0 - f (nth k v 0) < b).
Proof.
  intros HC [k0 [K1 K2]]. unfold check_interp. cbv zeta. destruct (unzip_ok v c (eq_sym HC)) as [E1 E2]. set (P := List.combine v c) in *. set (g := fun v => (Rltb (-34) v && Rltb v 34)%bool).
  assert (LP : length P = length v) by (unfold P; rewrite combine_length; lia).
  assert (NP : forall i, fst (nth i P (0, 0)) = nth i v 0 /\ snd (nth i P (0, 0)) = nth i c 0). { intros i. rewrite (proj1 (pair_nth P i)), (proj2 (pair_nth P i)), E1, E2. now split. }
  assert (GT : forall x, g x = true <-> -34 < x < 34). { intros x. unfold g. destruct (Rltb_spec (-34) x), (Rltb_spec x 34); cbn; split; intros; try discriminate; try reflexivity; lra. }
  assert (E : map g v = map (fun p => g (fst p)) P) by (rewrite <- E1 at 1; apply map_map). rewrite E.
  assert (S1 : select (map (fun p => g (fst p)) P) v = Ok (map fst (filter (fun p => g (fst p)) P))) by (rewrite <- E1; apply select_map). rewrite S1. cbn [bind].
  assert (S2 : select (map (fun p => g (fst p)) P) c = Ok (map snd (filter (fun p => g (fst p)) P))) by (rewrite <- E2; apply select_map). rewrite S2. cbn [bind].
  set (Q := filter _ P). assert (Z : zipwith (fun c v => c - f v) (map snd Q) (map fst Q) = map (fun p => snd p - f (fst p)) Q) by (induction Q as [|q Q IH]; [reflexivity|simpl; now rewrite IH]). rewrite Z.
  assert (IQ : forall p, In p Q <-> exists k, (k < length v)%nat /\ -34 < nth k v 0 < 34 /\ p = (nth k v 0, nth k c 0)).
  { intros p. unfold Q. rewrite filter_In, GT. split.
    - intros [A B]. destruct (In_nth _ _ (0, 0) A) as [k [Hk <-]]. rewrite LP in Hk. destruct (NP k) as [N1 N2]. exists k. rewrite <- N1 at 1. split; [assumption|]. split; [now rewrite <- N1|]. rewrite <- N1, <- N2. apply surjective_pairing.
    - intros [k [Hk [B ->]]]. split; [|assumption]. destruct (NP k) as [N1 N2]. rewrite <- N1, <- N2, <- surjective_pairing. apply nth_In. lia. }
  destruct (amax_lt (map (fun p => snd p - f (fst p)) Q) b) as [m [-> M]].
  { intros K. apply map_eq_nil in K. assert (In (nth k0 v 0, nth k0 c 0) Q) by (apply IQ; exists k0; repeat split; tauto). rewrite K in H. destruct H. }
  cbn [bind]. unfold guard. transitivity (Rltb m b = true); [destruct (Rltb m b); split; congruence|]. rewrite M. split.
  - intros H k Hk B. apply H. apply in_map_iff. exists (nth k v 0, nth k c 0). split; [reflexivity|]. apply IQ. exists k. repeat split; tauto.
  - intros H x Hx. apply in_map_iff in Hx. destruct Hx as [p [<- Hp]]. apply IQ in Hp. destruct Hp as [k [Hk [B ->]]]. now apply H.
Qed.
