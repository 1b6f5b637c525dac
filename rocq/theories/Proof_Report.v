(** Lemmas about paths and the disk. *)
From Coq Require Import List Bool Arith Lia Reals String Ascii.
From Verif Require Import Base Float Model_IVData Model_ExpData Model_Objects Model_Misc Model_Print Model_Files Model_Plots Model_Report Spec_Report.
Import ListNotations.
Open Scope string_scope.
Local Notation length := List.length.

(** ** Names *)
Lemma sapp_nil s : s ++ "" = s.
Proof. induction s as [|c s IH]; [reflexivity|]. cbn [append]. now rewrite IH. Qed.
Lemma sapp_assoc a b c : (a ++ b) ++ c = a ++ (b ++ c).
Proof. induction a as [|x a IH]; [reflexivity|]. cbn [append]. now rewrite IH. Qed.
Lemma split_slash p a b : split_at p (a ++ String slash b) = app (split_at p a) (split_at "" b).
Proof.
  revert p. induction a as [|c a IH]; intros p; cbn [append split_at].
  - rewrite Ascii.eqb_refl. reflexivity.
  - destruct (Ascii.eqb c slash); [cbn [app]; f_equal; apply IH|apply IH].
Qed.
Lemma ends_slash a : ends_with_slash a = true -> exists a', a = a' ++ String slash "".
Proof.
  induction a as [|c a IH]; [discriminate|]. intros H. destruct a as [|c' a].
  - cbn in H. apply Ascii.eqb_eq in H. subst c. now exists "".
  - change (ends_with_slash (String c' a) = true) in H. destruct (IH H) as [a' E]. exists (String c a'). cbn [append]. now rewrite E.
Qed.
Lemma named_app (l l' : list string) : filter (fun c => negb (String.eqb c "" || String.eqb c ".")) (app l l') = app (filter (fun c => negb (String.eqb c "" || String.eqb c ".")) l) (filter (fun c => negb (String.eqb c "" || String.eqb c ".")) l').
Proof. apply filter_app. Qed.
Lemma path_slash a b : path_of (a ++ String slash b) = ((match a with "" => true | _ => fst (path_of a) end), app (snd (path_of a)) (snd (path_of b))).
Proof.
  unfold path_of. rewrite split_slash, named_app. cbn [fst snd]. f_equal. destruct a; [reflexivity|]. reflexivity.
Qed.
Lemma join_path a b : a <> "" -> starts_with_slash b = false -> path_of (join a b) = sub_path a b.
Proof.
  intros A B. unfold join, sub_path. rewrite B. assert (E : String.eqb a "" = false) by now apply String.eqb_neq. rewrite E. cbn [orb]. destruct (ends_with_slash a) eqn:S.
  - destruct (ends_slash _ S) as [a' ->]. rewrite sapp_assoc. cbn [append]. rewrite !path_slash. cbn [fst snd]. change (snd (path_of "")) with (@nil string). rewrite app_nil_r. reflexivity.
  - rewrite path_slash. destruct a; [congruence|]. reflexivity.
Qed.
Lemma join_empty b : join "" b = b.
Proof. unfold join. cbn. now destruct (starts_with_slash b). Qed.
Lemma join_below a b : below a b -> path_of (join a b) = sub_path a b /\ join a b <> "".
Proof.
  intros [N B]. destruct (string_dec a "") as [->|A].
  - rewrite join_empty. destruct N as [N|N]; [congruence|]. split; [|exact N]. unfold sub_path. change (path_of "") with (false, @nil string). cbn [fst snd app]. unfold path_of. cbn [snd]. now rewrite B.
  - split; [now apply join_path|]. unfold join. rewrite B. destruct (String.eqb a "" || ends_with_slash a); destruct a; try congruence; discriminate.
Qed.
Lemma split_plain p s : no_slash s -> split_at p s = [p ++ s].
Proof.
  revert p. induction s as [|c s IH]; intros p H; cbn [split_at]; [now rewrite sapp_nil|]. destruct H as [N H]. destruct (Ascii.eqb_spec c slash) as [E|_]; [congruence|]. rewrite IH by assumption. now rewrite sapp_assoc.
Qed.
Lemma plain_path s : no_slash s -> s <> "" -> s <> "." -> path_of s = (false, [s]).
Proof.
  intros H N D. unfold path_of. rewrite split_plain by assumption. cbn [append filter]. rewrite (proj2 (String.eqb_neq s "") N), (proj2 (String.eqb_neq s ".") D). cbn [orb negb]. f_equal.
  destruct s as [|c s]; [reflexivity|]. destruct H as [C _]. cbn. now apply Ascii.eqb_neq.
Qed.
Lemma plain_slash s : no_slash s -> starts_with_slash s = false.
Proof. destruct s as [|c s]; [reflexivity|]. intros [C _]. cbn. now apply Ascii.eqb_neq. Qed.
Lemma file_path folder name : folder <> "" -> no_slash name -> name <> "" -> name <> "." -> path_of (join folder name) = file_in (path_of folder) name.
Proof.
  intros F H N D. rewrite join_path; [|assumption|now apply plain_slash]. unfold sub_path, file_in. now rewrite (plain_path name).
Qed.
Lemma path_eqb_spec p q : path_eqb p q = true <-> p = q.
Proof.
  unfold path_eqb. destruct p as [a l], q as [b m]. cbn [fst snd]. split.
  - intros H. apply andb_prop in H. destruct H as [H1 H2]. apply Bool.eqb_prop in H1. destruct (list_eq_dec string_dec l m); [congruence|discriminate].
  - intros H. injection H as -> ->. rewrite Bool.eqb_reflx. destruct (list_eq_dec string_dec m m); [reflexivity|congruence].
Qed.
Lemma path_eqb_refl p : path_eqb p p = true.
Proof. now apply path_eqb_spec. Qed.

(** ** The disk *)
Lemma no_contents w p : contents w p = None <-> is_file w p = false.
Proof.
  unfold contents, is_file. destruct (find _ _) as [f|] eqn:F.
  - apply find_some in F. destruct F as [I E]. split; [discriminate|]. intros N. exfalso. assert (X : existsb (fun f => path_eqb p (fst f)) (files w) = true) by (apply existsb_exists; eauto). congruence.
  - split; [intros _|reflexivity]. destruct (existsb _ _) eqn:X; [|reflexivity]. apply existsb_exists in X. destruct X as [f [I E]]. pose proof (find_none _ _ F f I) as N. cbn in N. congruence.
Qed.
Lemma prefix_leads p q : In q (prefixes p) -> leads_to q p.
Proof. unfold prefixes, leads_to. intros H. apply in_map_iff in H. destruct H as [k [<- K]]. cbn [fst snd]. split; [reflexivity|]. exists (skipn k (snd p)). symmetry. apply firstn_skipn. Qed.
Lemma prefix_self p : snd p <> [] -> In p (prefixes p).
Proof.
  intros N. unfold prefixes. apply in_map_iff. exists (length (snd p)). split; [rewrite firstn_all; now destruct p|]. apply in_seq. destruct (snd p); [congruence|]. cbn [List.length]. lia.
Qed.
Lemma leads_refl p : leads_to p p.
Proof. split; [reflexivity|]. exists []. now rewrite app_nil_r. Qed.
Lemma directory_in w p : directory w p <-> snd p = [] \/ In p (dirs w).
Proof.
  unfold directory, is_dir. destruct (snd p) as [|c l] eqn:E; [split; [now left|reflexivity]|]. rewrite existsb_exists. split.
  - intros [q [I Q]]. right. apply path_eqb_spec in Q. now subst q.
  - intros [N|I]; [discriminate|]. exists p. split; [assumption|apply path_eqb_refl].
Qed.
Lemma changes_nil w : changes w w [] [].
Proof. repeat split; auto; contradiction. Qed.
Lemma ensure_ok w s : s <> "" -> (forall q, leads_to q (path_of s) -> contents w q = None) -> exists w', ensure w s = Ok w' /\ files w' = files w /\ changes w w' [path_of s] [].
Proof.
  intros N F. unfold ensure. destruct (path_exists w s) eqn:E.
  - exists w. split; [reflexivity|]. split; [reflexivity|]. unfold path_exists in E. rewrite (proj2 (String.eqb_neq s "") N) in E. rewrite (proj1 (no_contents w (path_of s)) (F _ (leads_refl _))), orb_false_r in E.
    split; [auto|]. split; [intros p [<-|[]]; exact E|]. split; [auto|]. split; [intros p c []|reflexivity].
  - unfold makedirs. rewrite (proj2 (String.eqb_neq s "") N). cbn [negb guard bind]. rewrite E. cbn [negb guard bind].
    assert (X : forallb (fun p => negb (is_file w p)) (prefixes (path_of s)) = true). { apply forallb_forall. intros q Q. rewrite (proj1 (no_contents w q)); [reflexivity|]. apply F. now apply prefix_leads. }
    rewrite X. cbn [guard bind]. eexists. split; [reflexivity|]. split; [reflexivity|]. unfold changes. setoid_rewrite directory_in. cbn [dirs files]. setoid_rewrite in_app_iff. setoid_rewrite filter_In.
    split; [intuition|]. split; [|split; [|split; [intros p c []|reflexivity]]].
    + intros p [<-|[]]. destruct (snd (path_of s)) eqn:L; [now left|]. right. destruct (is_dir w (path_of s)) eqn:D.
      * apply directory_in in D. destruct D as [D|D]; [congruence|now left].
      * right. split; [apply prefix_self; congruence|]. reflexivity.
    + intros p [P|[P|[P _]]]; [left; now left|left; now right|]. right. exists (path_of s). split; [now left|]. now apply prefix_leads.
Qed.
Lemma contents_write w p a q : contents {| dirs := dirs w; files := filter (fun f => negb (path_eqb p (fst f))) (files w) ++ [(p, a)] |} q = if path_eqb p q then Some a else contents w q.
Proof.
  unfold contents. cbn [files]. induction (files w) as [|[r b] l IH]; cbn [filter app find fst].
  - destruct (path_eqb p q) eqn:E; [apply path_eqb_spec in E; subst; now rewrite path_eqb_refl|]. destruct (path_eqb q p) eqn:E'; [|reflexivity]. apply path_eqb_spec in E'. subst. now rewrite path_eqb_refl in E.
  - destruct (path_eqb p r) eqn:R; cbn [negb].
    + rewrite IH. destruct (path_eqb p q) eqn:Q; [reflexivity|]. destruct (path_eqb q r) eqn:QR; [|reflexivity]. apply path_eqb_spec in QR, R. subst. now rewrite path_eqb_refl in Q.
    + cbn [app find fst]. destruct (path_eqb q r) eqn:QR; [|exact IH]. destruct (path_eqb p q) eqn:Q; [|reflexivity]. apply path_eqb_spec in QR, Q. subst. now rewrite path_eqb_refl in R.
Qed.
Lemma removelast_app1 (l : list string) x : removelast (app l [x]) = l.
Proof. rewrite removelast_app by discriminate. cbn [removelast]. apply app_nil_r. Qed.
Lemma write_ok w s a folder name : path_of s = file_in folder name -> directory w folder -> ~ directory w (file_in folder name) -> exists w', write_file w s a = Ok w' /\ dirs w' = dirs w /\ changes w w' [] [(file_in folder name, a)].
Proof.
  intros E D ND. unfold write_file. rewrite E. unfold directory in D, ND. destruct (is_dir w (file_in folder name)) eqn:X; [congruence|]. cbn [negb guard bind]. unfold file_in at 1 2. cbn [fst snd]. rewrite removelast_app1. replace (fst folder, snd folder) with folder by now destruct folder. rewrite D. cbn [guard bind]. eexists. split; [reflexivity|]. split; [reflexivity|].
  unfold changes. setoid_rewrite directory_in. cbn [dirs]. setoid_rewrite contents_write. split; [auto|]. split; [intros p []|]. split; [auto|]. split.
  - intros p c [H|[]]. injection H as <- <-. now rewrite path_eqb_refl.
  - intros p N. destruct (path_eqb (file_in folder name) p) eqn:Q; [|reflexivity]. apply path_eqb_spec in Q. subst p. exfalso. apply N. now left.
Qed.
Lemma changes_trans w w1 w2 F1 N1 F2 N2 : changes w w1 F1 N1 -> changes w1 w2 F2 N2 -> (forall p, In p (map fst N1) -> ~ In p (map fst N2)) -> changes w w2 (app F1 F2) (app N1 N2).
Proof.
  intros [A1 [A2 [A3 [A4 A5]]]] [B1 [B2 [B3 [B4 B5]]]] ND. unfold changes. setoid_rewrite in_app_iff. split; [auto|]. split; [intros p [P|P]; auto|]. split; [|split].
  - intros p P. destruct (B3 p P) as [Q|[f [Q1 Q2]]]; [|right; exists f; auto]. destruct (A3 p Q) as [R|[f [R1 R2]]]; [now left|right; exists f; auto].
  - intros p c [P|P]; [|now apply B4]. rewrite B5; [now apply A4|]. apply ND. apply in_map_iff. now exists (p, c).
  - intros p P. rewrite map_app, in_app_iff in P. rewrite B5, A5; tauto.
Qed.

(** ** Programs *)
Definition writes (l : list (string * content)) : program := io_each l (fun p => effect (fun w => write_file w (fst p) (snd p))).
Lemma need_dirs w L : (forall s, In s L -> s <> "") -> (forall f q, In f (map path_of L) -> leads_to q f -> contents w q = None) -> exists w', io_each L need_dir w = (w', Ok tt) /\ changes w w' (map path_of L) [].
Proof.
  revert w. induction L as [|s L IH]; intros w N F.
  - exists w. split; [reflexivity|apply changes_nil].
  - destruct (ensure_ok w s) as [w1 [E [FW C]]]; [apply N; now left|intros q; apply F; now left|]. destruct (IH w1) as [w2 [E2 C2]]; [intros x X; apply N; now right|intros f q X Y; unfold contents; rewrite FW; apply (F f q); [now right|assumption]|].
    exists w2. cbn [io_each]. unfold iobind, need_dir, effect. rewrite E. split; [exact E2|]. apply (changes_trans _ _ _ _ _ _ _ C C2). intros p [].
Qed.
Lemma writes_ok w (l : list (string * content)) : (forall p, In p l -> exists folder name, path_of (fst p) = file_in folder name /\ directory w folder /\ ~ directory w (file_in folder name)) -> NoDup (map (fun p => path_of (fst p)) l) ->
  exists w', writes l w = (w', Ok tt) /\ changes w w' [] (map (fun p => (path_of (fst p), snd p)) l).
Proof.
  revert w. induction l as [|[s c] l IH]; intros w H ND.
  - exists w. split; [reflexivity|apply changes_nil].
  - destruct (H (s, c)) as [folder [name [E [D N]]]]; [now left|]. cbn [fst] in E. destruct (write_ok w s c folder name E D N) as [w1 [E1 [DE C1]]]. inversion ND as [|x y NI ND']; subst.
    assert (DD : forall p, directory w1 p <-> directory w p) by (intros p; rewrite !directory_in, DE; reflexivity).
    destruct (IH w1) as [w2 [E2 C2]]; [|assumption|].
    { intros p P. destruct (H p) as [f' [n' [X1 [X2 X3]]]]; [now right|]. exists f', n'. rewrite !DD. auto. }
    exists w2. cbn [writes io_each fst snd]. unfold iobind, effect. rewrite E1. split; [exact E2|]. cbn [map fst snd]. rewrite E. apply (changes_trans w w1 w2 [] [(file_in folder name, c)] [] _ C1 C2). intros p [<-|[]]. cbn [map fst]. rewrite <- E. rewrite map_map. exact NI.
Qed.
Lemma report_ok w L (l : list (string * content)) : (forall s, In s L -> s <> "") -> room w (map path_of L) (map (fun p => path_of (fst p)) l) ->
  (forall p, In p l -> exists folder name, In folder L /\ path_of (fst p) = file_in (path_of folder) name) -> NoDup (map (fun p => path_of (fst p)) l) ->
  exists w1 w2, io_each L need_dir w = (w1, Ok tt) /\ writes l w1 = (w2, Ok tt) /\ changes w w2 (map path_of L) (map (fun p => (path_of (fst p), snd p)) l).
Proof.
  intros N [R1 R2] H ND. destruct (need_dirs w L N R1) as [w1 [E1 C1]]. destruct (writes_ok w1 l) as [w2 [E2 C2]]; [|assumption|].
  - intros p P. destruct (H p P) as [folder [name [F E]]]. exists (path_of folder), name. split; [assumption|]. destruct C1 as [A1 [A2 [A3 _]]]. split; [apply A2; now apply in_map|]. rewrite <- E. intros D. destruct (R2 (path_of (fst p))) as [X Y]; [apply in_map_iff; now exists p|]. destruct (A3 _ D) as [D'|[f [F1 F2]]]; [now apply X|]. now apply (Y f).
  - exists w1, w2. split; [assumption|]. split; [assumption|]. rewrite <- (app_nil_r (map path_of L)). rewrite <- (app_nil_l (map (fun p => (path_of (fst p), snd p)) l)). apply (changes_trans _ _ _ _ _ _ _ C1 C2). intros p [].
Qed.
Lemma io_unit (m : program) w : (do _ <- m; ret tt) w = m w.
Proof. unfold iobind, ret. destruct (m w) as [w' [[]|e]]; reflexivity. Qed.
Lemma io_assoc {T U V} (m : io content T) (k : T -> io content U) (h : U -> io content V) w : (do y <- (do x <- m; k x); h y) w = (do x <- m; do y <- k x; h y) w.
Proof. unfold iobind. destruct (m w) as [w' [x|e]]; reflexivity. Qed.
Lemma io_step {T U} (m : io content T) (k : T -> io content U) w w1 x : m w = (w1, Ok x) -> (do y <- m; k y) w = k x w1.
Proof. intros H. unfold iobind. now rewrite H. Qed.
Lemma writes_step s c l w : writes ((s, c) :: l) w = (do _ <- effect (fun w => write_file w s c); writes l) w.
Proof. reflexivity. Qed.
Lemma file_in_inj p q a b : file_in p a = file_in q b -> a = b.
Proof. unfold file_in. intros H. apply (f_equal snd) in H. cbn [snd] in H. apply app_inj_tail in H. tauto. Qed.
Lemma distinct_files (l : list (path * string)) : NoDup (map snd l) -> NoDup (map (fun x => file_in (fst x) (snd x)) l).
Proof.
  induction l as [|[p a] l IH]; intros H; [constructor|]. cbn [map fst snd]. inversion H as [|x y NI ND]; subst. constructor; [|now apply IH].
  intros I. apply in_map_iff in I. destruct I as [[q b] [E I]]. apply file_in_inj in E. cbn in E. subst b. apply NI. apply in_map_iff. now exists (q, a).
Qed.

(** ** DCData.plot_all *)
Lemma dc_report d vleak fig sub vmax a p w : plot_dciv d vleak vmax = Ok a -> plot_if_noise d = Ok p ->
  let sub' := match sub with None => "dciv/" | Some s => s end in below fig sub' ->
  let folder := sub_path fig sub' in
  let news := (file_in folder "dciv.png", Picture [a]) :: match p with None => [] | Some (b, c) => [(file_in folder "dcif.png", Picture [b; c])] end in
  room w [folder] (map fst news) -> exists w', dc_plot_all d vleak fig sub vmax w = (w', Ok tt) /\ changes w w' [folder] news.
Proof.
  intros A P sub' BE folder news RO. destruct (join_below _ _ BE) as [JP JN]. set (f := join fig sub') in *.
  assert (FP : forall name, no_slash name -> name <> "" -> name <> "." -> path_of (join f name) = file_in folder name) by (intros name X Y Z; rewrite file_path by assumption; unfold folder; now rewrite JP).
  assert (P1 : path_of (join f "dciv.png") = file_in folder "dciv.png") by (apply FP; [cbn; repeat split; discriminate|discriminate|discriminate]).
  assert (P2 : path_of (join f "dcif.png") = file_in folder "dcif.png") by (apply FP; [cbn; repeat split; discriminate|discriminate|discriminate]).
  set (l := (join f "dciv.png", Picture [a]) :: match p with None => [] | Some (b, c) => [(join f "dcif.png", Picture [b; c])] end).
  assert (EL : map (fun p => (path_of (fst p), snd p)) l = news) by (unfold l, news; destruct p as [[b c]|]; cbn [map fst snd]; rewrite P1; try rewrite P2; reflexivity).
  assert (EP : map (fun p => path_of (fst p)) l = map fst news) by (rewrite <- EL, map_map; reflexivity).
  destruct (report_ok w [f] l) as [w1 [w2 [E1 [E2 C]]]].
  - intros s [<-|[]]. exact JN.
  - cbn [map]. rewrite JP, EP. exact RO.
  - intros q Q. exists f. unfold l in Q. destruct p as [[b c]|]; cbn [In] in Q.
    + destruct Q as [<-|[<-|[]]]; eexists; (split; [now left|]); rewrite JP; [exact P1|exact P2].
    + destruct Q as [<-|[]]; eexists; (split; [now left|]); rewrite JP; exact P1.
  - rewrite EP. unfold news. destruct p as [[b c]|]; cbn [map fst]; [apply (distinct_files [(folder, "dciv.png"); (folder, "dcif.png")])|apply (distinct_files [(folder, "dciv.png")])]; cbn [map snd]; repeat constructor; cbn [In]; intuition discriminate.
  - exists w2. cbn [map] in C. rewrite JP, EL in C. split; [|exact C]. unfold dc_plot_all. fold sub'. fold f.
    cbn [io_each] in E1. rewrite io_unit in E1. rewrite (io_step _ _ _ _ _ E1). unfold saved1. rewrite A. rewrite P. unfold l in E2. unfold writes in E2. cbn [io_each] in E2. fold (save (join f "dciv.png") [a]) in E2.
    destruct p as [[b c]|]; [|exact E2]. cbn [io_each] in E2. unfold iobind, ret, value, save, effect in *. cbn [fst snd] in *. destruct (write_file w1 _ _) as [w3|]; [|discriminate]. destruct (write_file w3 _ _) as [w4|]; [exact E2|discriminate].
Qed.
Lemma dc_report_nowhere d vleak vmax w : dc_plot_all d vleak "" (Some "") vmax w = (w, Err OSError).
Proof. reflexivity. Qed.

(** ** PumpedData.plot_all *)
Lemma entry_found d k v : entry d k v -> entry_of d k = Ok v.
Proof.
  intros [N I]. induction d as [|[k' v'] d IH]; [destruct I|]. cbn [entry_of]. cbn [map fst] in N. inversion N as [|x y NI ND]; subst. destruct (String.eqb_spec k k') as [E|E].
  - subst k'. destruct I as [I|I]; [now injection I as ->|]. exfalso. apply NI. apply in_map_iff. now exists (k, v).
  - destruct I as [I|I]; [congruence|]. now apply IH.
Qed.
Lemma entry_missing d k : ~ In k (map fst d) -> entry_of d k = Err KeyError.
Proof. induction d as [|[k' v'] d IH]; intros N; [reflexivity|]. cbn [entry_of]. destruct (String.eqb_spec k k') as [E|E]; [exfalso; apply N; now left|]. apply IH. intros I. apply N. now right. Qed.
Lemma selects_folders a iv ivif surf sim tn : selects a iv ivif surf sim tn -> pumped_folders a = Ok [iv; ivif; surf; sim; tn].
Proof.
  unfold selects, pumped_folders. destruct a as [|s|d|]; intros H.
  - injection H as -> -> -> -> ->. reflexivity.
  - destruct H as [-> H]. injection H as -> -> -> -> ->. reflexivity.
  - destruct H as [H1 [H2 [H3 [H4 H5]]]]. cbn [mapM]. rewrite (entry_found _ _ _ H1), (entry_found _ _ _ H2), (entry_found _ _ _ H3), (entry_found _ _ _ H4), (entry_found _ _ _ H5). reflexivity.
  - destruct H.
Qed.
Lemma no_slash_app a b : no_slash (a ++ b) <-> no_slash a /\ no_slash b.
Proof. induction a as [|c a IH]; cbn [append no_slash]; tauto. Qed.
Lemma sapp_length a b : String.length (a ++ b) = (String.length a + String.length b)%nat.
Proof. induction a as [|c a IH]; [reflexivity|]. cbn [append String.length Nat.add]. now rewrite IH. Qed.
Lemma sapp_inj a b c : a ++ b = a ++ c -> b = c.
Proof. induction a as [|x a IH]; [auto|]. cbn [append]. intros H. injection H as H. now apply IH. Qed.
Lemma long_name a b : (2 <= String.length b)%nat -> a ++ b <> "" /\ a ++ b <> ".".
Proof. intros L. assert (K : (2 <= String.length (a ++ b))%nat) by (rewrite sapp_length; lia). split; intros E; rewrite E in K; cbn in K; lia. Qed.

Section Pumped.
Variable J : nat -> R -> R.
Variable inv : nat -> (nat -> nat -> R) -> option (nat -> nat -> R).
Variable str : R -> string.
Local Notation run := (pumped_plot_all J inv str).
Lemma pumped_report d u o fig struc vmax iv ivif surf sim tn a1 a2 a3 l4 w : selects struc iv ivif surf sim tn ->
  below fig iv -> below fig ivif -> below fig surf -> below fig sim -> below fig tn -> no_slash (str (u_freq u)) ->
  plot_iv d u vmax = Ok a1 -> plot_ivif d u vmax = Ok a2 -> plot_noise_temp d u vmax = Ok a3 ->
  match u_recovered u with
  | None => l4 = None
  | Some _ => exists a4 a5, l4 = Some (a4, a5) /\ plot_error_surface d u o = Ok a4 /\ plot_simulated J inv d u o vmax = Ok a5
  end ->
  let folders := map (sub_path fig) [iv; ivif; surf; sim; tn] in
  let name s := str (u_freq u) ++ s in
  let news := app [(file_in (sub_path fig iv) (name "-iv.png"), Picture [a1]); (file_in (sub_path fig ivif) (name "-iv-if.png"), Picture [fst a2; snd a2]); (file_in (sub_path fig tn) (name "-tn.png"), Picture [fst a3; snd a3])]
    match l4 with None => [] | Some (a4, a5) => [(file_in (sub_path fig surf) (name "-err-surf.png"), Picture [a4]); (file_in (sub_path fig sim) (name "-sim.png"), Picture [a5])] end in
  room w folders (map fst news) -> exists w', run d u o fig struc vmax w = (w', Ok tt) /\ changes w w' folders news.
Proof.
  intros S B1 B2 B3 B4 B5 NS A1 A2 A3 A4 folders name news RO.
  destruct (join_below _ _ B1) as [J1 N1]. destruct (join_below _ _ B2) as [J2 N2]. destruct (join_below _ _ B3) as [J3 N3]. destruct (join_below _ _ B4) as [J4 N4]. destruct (join_below _ _ B5) as [J5 N5].
  assert (FP : forall sub s, join fig sub <> "" -> path_of (join fig sub) = sub_path fig sub -> no_slash s -> (2 <= String.length s)%nat -> path_of (join (join fig sub) (name s)) = file_in (sub_path fig sub) (name s)).
  { intros sub s X Y Z L. rewrite file_path; [now rewrite Y|assumption|apply no_slash_app; auto|now apply long_name|now apply long_name]. }
  assert (Q1 : path_of (join (join fig iv) (name "-iv.png")) = file_in (sub_path fig iv) (name "-iv.png")) by (apply FP; [assumption|assumption|cbn; repeat split; discriminate|cbn; lia]).
  assert (Q2 : path_of (join (join fig ivif) (name "-iv-if.png")) = file_in (sub_path fig ivif) (name "-iv-if.png")) by (apply FP; [assumption|assumption|cbn; repeat split; discriminate|cbn; lia]).
  assert (Q3 : path_of (join (join fig tn) (name "-tn.png")) = file_in (sub_path fig tn) (name "-tn.png")) by (apply FP; [assumption|assumption|cbn; repeat split; discriminate|cbn; lia]).
  assert (Q4 : path_of (join (join fig surf) (name "-err-surf.png")) = file_in (sub_path fig surf) (name "-err-surf.png")) by (apply FP; [assumption|assumption|cbn; repeat split; discriminate|cbn; lia]).
  assert (Q5 : path_of (join (join fig sim) (name "-sim.png")) = file_in (sub_path fig sim) (name "-sim.png")) by (apply FP; [assumption|assumption|cbn; repeat split; discriminate|cbn; lia]).
  set (L := map (join fig) [iv; ivif; surf; sim; tn]).
  set (l := app [(join (join fig iv) (name "-iv.png"), Picture [a1]); (join (join fig ivif) (name "-iv-if.png"), Picture [fst a2; snd a2]); (join (join fig tn) (name "-tn.png"), Picture [fst a3; snd a3])]
    match l4 with None => [] | Some (a4, a5) => [(join (join fig surf) (name "-err-surf.png"), Picture [a4]); (join (join fig sim) (name "-sim.png"), Picture [a5])] end).
  assert (EF : map path_of L = folders) by (unfold L, folders; cbn [map]; now rewrite J1, J2, J3, J4, J5).
  assert (EL : map (fun p => (path_of (fst p), snd p)) l = news) by (unfold l, news; destruct l4 as [[a4 a5]|]; cbn [map app fst snd]; rewrite Q1, Q2, Q3; try rewrite Q4, Q5; reflexivity).
  assert (EP : map (fun p => path_of (fst p)) l = map fst news) by (rewrite <- EL, map_map; reflexivity).
  assert (NN : forall s t, s <> t -> name s <> name t) by (intros s t X Y; apply X; now apply sapp_inj in Y).
  destruct (report_ok w L l) as [w1 [w2 [E1 [E2 C]]]].
  - intros s X. unfold L in X. cbn [map In] in X. destruct X as [<-|[<-|[<-|[<-|[<-|[]]]]]]; assumption.
  - rewrite EF, EP. exact RO.
  - intros q Q. unfold l in Q. apply in_app_or in Q. unfold L. destruct Q as [Q|Q].
    + cbn [In] in Q. destruct Q as [<-|[<-|[<-|[]]]]; [exists (join fig iv)|exists (join fig ivif)|exists (join fig tn)]; eexists; cbn [fst map In]; (split; [tauto|]); [rewrite J1; exact Q1|rewrite J2; exact Q2|rewrite J5; exact Q3].
    + destruct l4 as [[a4 a5]|]; [|destruct Q]. cbn [In] in Q. destruct Q as [<-|[<-|[]]]; [exists (join fig surf)|exists (join fig sim)]; eexists; cbn [fst map In]; (split; [tauto|]); [rewrite J3; exact Q4|rewrite J4; exact Q5].
  - rewrite EP. assert (D5 : NoDup (map snd [(sub_path fig iv, name "-iv.png"); (sub_path fig ivif, name "-iv-if.png"); (sub_path fig tn, name "-tn.png"); (sub_path fig surf, name "-err-surf.png"); (sub_path fig sim, name "-sim.png")])).
    { cbn [map snd]. repeat constructor; cbn [In]; intros X; repeat (destruct X as [X|X]; [revert X; apply NN; discriminate|]); destruct X. }
    unfold news. destruct l4 as [[a4 a5]|]; cbn [map app fst].
    + exact (distinct_files _ D5).
    + apply (distinct_files [(sub_path fig iv, name "-iv.png"); (sub_path fig ivif, name "-iv-if.png"); (sub_path fig tn, name "-tn.png")]). cbn [map snd] in *. inversion D5 as [|x y X1 D4]; subst. inversion D4 as [|x y X2 D3]; subst. inversion D3 as [|x y X3 D2]; subst. repeat constructor; cbn [In] in *; tauto.
  - exists w2. rewrite EF, EL in C. split; [|exact C]. unfold pumped_plot_all. rewrite (selects_folders _ _ _ _ _ _ S). unfold value at 1. rewrite (io_step _ _ w w [iv; ivif; surf; sim; tn] eq_refl). fold L.
    rewrite (io_step _ _ _ _ _ E1). unfold L. cbn [map nth]. unfold saved1, saved2. rewrite A1, A2, A3. fold (name "-iv.png") (name "-iv-if.png") (name "-tn.png") (name "-err-surf.png") (name "-sim.png").
    unfold l, writes in E2. clear - E2 A4. destruct (u_recovered u) as [r|].
    + destruct A4 as [a4 [a5 [-> [-> ->]]]]. cbn [app io_each] in E2. unfold iobind, ret, value, save, effect in *. cbn [fst snd] in *.
      do 5 (match type of E2 with context [write_file ?w ?s ?c] => destruct (write_file w s c); [|discriminate] end). exact E2.
    + subst l4. cbn [app io_each] in E2. unfold iobind, ret, value, save, effect in *. cbn [fst snd] in *.
      do 3 (match type of E2 with context [write_file ?w ?s ?c] => destruct (write_file w s c); [|discriminate] end). exact E2.
Qed.
(** The documented keys are not enough. *)
Lemma pumped_four_keys d u o fig e vmax w : map fst e = documented_keys -> run d u o fig (SDict e) vmax w = (w, Err KeyError).
Proof.
  intros H. unfold pumped_plot_all. assert (E : pumped_folders (SDict e) = Err KeyError); [|rewrite E; reflexivity].
  unfold pumped_folders. destruct e as [|[k1 v1] [|[k2 v2] [|[k3 v3] [|[k4 v4] [|]]]]]; try discriminate. cbn [map fst] in H. injection H as -> -> -> ->. reflexivity.
Qed.
Lemma pumped_other d u o fig s vmax w : s <> "" -> run d u o fig (SString s) vmax w = (w, Err ValueError) /\ run d u o fig SOther vmax w = (w, Err ValueError).
Proof. intros N. split; [|reflexivity]. unfold pumped_plot_all, pumped_folders. rewrite (proj2 (String.eqb_neq s "") N). reflexivity. Qed.
(** Without IF results there is one figure only. *)
Lemma pumped_no_if d u o fig struc vmax iv ivif surf sim tn a1 w : selects struc iv ivif surf sim tn ->
  below fig iv -> below fig ivif -> below fig surf -> below fig sim -> below fig tn -> no_slash (str (u_freq u)) ->
  plot_iv d u vmax = Ok a1 -> plot_ivif d u vmax = Err TypeError ->
  let folders := map (sub_path fig) [iv; ivif; surf; sim; tn] in
  let news := [(file_in (sub_path fig iv) (str (u_freq u) ++ "-iv.png"), Picture [a1])] in
  room w folders (map fst news) -> exists w', run d u o fig struc vmax w = (w', Err TypeError) /\ changes w w' folders news.
Proof.
  intros S B1 B2 B3 B4 B5 NS A1 A2 folders news RO.
  destruct (join_below _ _ B1) as [J1 N1]. destruct (join_below _ _ B2) as [J2 N2]. destruct (join_below _ _ B3) as [J3 N3]. destruct (join_below _ _ B4) as [J4 N4]. destruct (join_below _ _ B5) as [J5 N5].
  assert (Q1 : path_of (join (join fig iv) (str (u_freq u) ++ "-iv.png")) = file_in (sub_path fig iv) (str (u_freq u) ++ "-iv.png")).
  { rewrite file_path; [now rewrite J1|assumption|apply no_slash_app; split; [assumption|cbn; repeat split; discriminate]|apply long_name; cbn; lia|apply long_name; cbn; lia]. }
  set (L := map (join fig) [iv; ivif; surf; sim; tn]). set (l := [(join (join fig iv) (str (u_freq u) ++ "-iv.png"), Picture [a1])]).
  assert (EF : map path_of L = folders) by (unfold L, folders; cbn [map]; now rewrite J1, J2, J3, J4, J5).
  assert (EL : map (fun p => (path_of (fst p), snd p)) l = news) by (unfold l, news; cbn [map fst snd]; now rewrite Q1).
  assert (EP : map (fun p => path_of (fst p)) l = map fst news) by (rewrite <- EL, map_map; reflexivity).
  destruct (report_ok w L l) as [w1 [w2 [E1 [E2 C]]]].
  - intros s X. unfold L in X. cbn [map In] in X. destruct X as [<-|[<-|[<-|[<-|[<-|[]]]]]]; assumption.
  - rewrite EF, EP. exact RO.
  - intros q [<-|[]]. exists (join fig iv). eexists. cbn [fst]. split; [now left|]. rewrite J1. exact Q1.
  - rewrite EP. cbn. constructor; [intros []|constructor].
  - exists w2. rewrite EF, EL in C. split; [|exact C]. unfold pumped_plot_all. rewrite (selects_folders _ _ _ _ _ _ S). unfold value at 1. rewrite (io_step _ _ w w [iv; ivif; surf; sim; tn] eq_refl). fold L.
    rewrite (io_step _ _ _ _ _ E1). unfold L. cbn [map nth]. unfold saved1, saved2. rewrite A1, A2. unfold l, writes in E2. cbn [io_each] in E2. unfold iobind, ret, value, save, effect in *. cbn [fst snd] in *.
    destruct (write_file w1 _ _); [|discriminate]. injection E2 as ->. reflexivity.
Qed.
End Pumped.

(** ** initialize_dir *)
Lemma glue fig sub : ends_with_slash fig = true -> path_of (fig ++ sub) = sub_path fig sub.
Proof.
  intros H. destruct (ends_slash _ H) as [a ->]. rewrite sapp_assoc. cbn [append]. unfold sub_path. rewrite !path_slash. cbn [fst snd]. change (snd (path_of "")) with (@nil string). now rewrite app_nil_r.
Qed.
Lemma io_each_map {T} (g : T -> string) (l : list T) w : io_each l (fun x => need_dir (g x)) w = io_each (map g l) need_dir w.
Proof. revert w. induction l as [|x l IH]; intros w; [reflexivity|]. cbn [io_each map]. unfold iobind. destruct (need_dir (g x) w) as [w' [[]|e]]; [apply IH|reflexivity]. Qed.
Lemma directories fig w : ends_with_slash fig = true -> let folders := path_of fig :: map (sub_path fig) sub_folders in room w folders [] ->
  exists w', initialize_dir fig w = (w', Ok tt) /\ changes w w' folders [].
Proof.
  intros H folders [R _]. unfold initialize_dir. rewrite io_each_map. assert (N : fig <> "") by (intros ->; discriminate).
  assert (E : map path_of (map (fun s => fig ++ s) ("" :: map snd file_structure)) = folders).
  { unfold folders, sub_folders, file_structure. cbn [map snd]. rewrite !glue by assumption. f_equal. unfold sub_path. change (snd (path_of "")) with (@nil string). rewrite app_nil_r. now destruct (path_of fig). }
  destruct (need_dirs w (map (fun s => fig ++ s) ("" :: map snd file_structure))) as [w' [E1 C]].
  - intros s X. apply in_map_iff in X. destruct X as [t [<- _]]. destruct fig; [congruence|discriminate].
  - rewrite E. exact R.
  - exists w'. rewrite E in C. auto.
Qed.
Lemma directories_glued : exists w, initialize_dir "results" blank = (w, Ok tt) /\ directory w (path_of "results") /\ ~ directory w (sub_path "results" "dciv/") /\ directory w (path_of "resultsdciv").
Proof. eexists. split; [vm_compute; reflexivity|]. split; [vm_compute; reflexivity|]. split; [vm_compute; discriminate|vm_compute; reflexivity]. Qed.

(** ** plot_if_spectrum *)
Lemma spectrum_refused smoothed name found fig w : plot_if_spectrum smoothed (name :: found) fig w = (w, Err ValueError).
Proof. reflexivity. Qed.
Lemma spectrum_nowhere smoothed w : plot_if_spectrum smoothed [] None w = (w, Err TypeError).
Proof. reflexivity. Qed.
Lemma spectrum_nothing smoothed fig w : fig <> "" -> let folder := path_of fig in
  let news := map (fun x => (file_in folder (fst x), Picture [spectra (snd x) []])) [("if_spectra.png", 500%R); ("if_spectra2.png", 2000%R); ("if_spectra_smooth.png", 500%R); ("if_spectra_smooth2.png", 2000%R)] in
  directory w folder -> (forall t, In t (map fst news) -> ~ directory w t) -> exists w', plot_if_spectrum smoothed [] (Some fig) w = (w', Ok tt) /\ changes w w' [] news.
Proof.
  intros N folder news D R.
  assert (FP : forall name, no_slash name -> name <> "" -> name <> "." -> path_of (join fig name) = file_in folder name) by (intros name X Y Z; now rewrite file_path by assumption).
  set (l := map (fun x => (join fig (fst x), Picture [spectra (snd x) []])) [("if_spectra.png", 500%R); ("if_spectra2.png", 2000%R); ("if_spectra_smooth.png", 500%R); ("if_spectra_smooth2.png", 2000%R)]).
  assert (EL : map (fun p => (path_of (fst p), snd p)) l = news). { unfold l, news. cbn [map fst snd]. rewrite !FP by (try discriminate; cbn; repeat split; discriminate). reflexivity. }
  destruct (writes_ok w l) as [w' [E C]].
  - intros p P. assert (Q : In (path_of (fst p)) (map fst news)) by (rewrite <- EL, map_map; cbn [fst]; apply in_map_iff; now exists p). specialize (R _ Q). unfold news in Q. rewrite map_map in Q. cbn [fst] in Q. apply in_map_iff in Q. destruct Q as [x [X _]]. exists folder, (fst x). rewrite X. split; [reflexivity|]. rewrite <- X in R. rewrite <- X. auto.
  - replace (map (fun p => path_of (fst p)) l) with (map fst (map (fun p => (path_of (fst p), snd p)) l)) by (rewrite map_map; reflexivity). rewrite EL. unfold news. rewrite map_map. cbn [fst map]. apply (distinct_files [(folder, "if_spectra.png"); (folder, "if_spectra2.png"); (folder, "if_spectra_smooth.png"); (folder, "if_spectra_smooth2.png")]). cbn [map snd]. repeat constructor; cbn [In]; intuition discriminate.
  - exists w'. rewrite EL in C. split; [|exact C]. unfold l, writes in E. cbn [map io_each fst snd] in E. unfold plot_if_spectrum. unfold iobind, ret, value, save, effect in *. cbn [fst snd join_opt] in *.
    do 4 (match type of E with context [write_file ?w ?s ?c] => destruct (write_file w s c); [|discriminate] end). exact E.
Qed.
