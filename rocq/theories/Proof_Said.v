(** Programs that print: results and messages of a sequence. *)
From Coq Require Import List.
From Verif Require Import Base Model_Said.
Import ListNotations.

Lemma snd_after {M A B} (m : said M A) (k : A -> said M B) : snd (after m k) = bind (snd m) (fun a => snd (k a)).
Proof. destruct m as [out [a|e]]; cbn; [|reflexivity]. now destruct (k a). Qed.
Lemma after_quiet {M A B} (r : res A) (k : A -> said M B) : after (quietly r) k = match r with Ok a => k a | Err e => ([], Err e) end.
Proof. destruct r; cbn; [|reflexivity]. now destruct (k a). Qed.
Lemma after_say {M B} b (l : list M) (k : unit -> said M B) : after (say_if b l) k = ((if b then l else []) ++ fst (k tt), snd (k tt)).
Proof. cbn. now destruct (k tt). Qed.
Lemma fst_quiet {M A B} (m : said M A) (k : A -> said M B) : fst m = [] -> (forall a, fst (k a) = []) -> fst (after m k) = [].
Proof. destruct m as [out [a|e]]; cbn; intros H K; [|exact H]. specialize (K a). destruct (k a). cbn in *. now rewrite H, K. Qed.
(** What was printed when the whole program returned. *)
Lemma after_ok {M A B} (m : said M A) (k : A -> said M B) out b : after m k = (out, Ok b) ->
  exists out1 a out2, m = (out1, Ok a) /\ k a = (out2, Ok b) /\ out = out1 ++ out2.
Proof. destruct m as [o [a|e]]; cbn; [|discriminate]. destruct (k a) as [o' r] eqn:E. intros H. injection H as <- ->. eauto 8. Qed.
Lemma quietly_ok {M A} (r : res A) (out : list M) a : quietly r = (out, Ok a) -> out = [] /\ r = Ok a.
Proof. unfold quietly. intros H. injection H as <- ->. now split. Qed.
