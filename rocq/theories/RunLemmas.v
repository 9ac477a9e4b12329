(** Runs in two parts. *)
From Verif Require Import Base.

Lemma run_app_ok {S O R : Type} (step : S -> O -> res (S * R)) ops ops' : forall s s1 s2 r r', run step s ops = Ok (s1, r) -> run step s1 ops' = Ok (s2, r') -> run step s (ops ++ ops') = Ok (s2, r ++ r').
Proof.
  induction ops as [|o ops IH]; intros s s1 s2 r r' E E'; cbn [run app] in *; [injection E as <- <-; exact E'|].
  destruct (step s o) as [[s' x]| |]; cbn [bind] in *; try discriminate. destruct (run step s' ops) as [[s3 xs]| |] eqn:E3; cbn [bind] in *; try discriminate.
  injection E as <- <-. rewrite (IH _ _ _ _ _ E3 E'). reflexivity.
Qed.
Lemma outputs_app {S O R : Type} (step : S -> O -> res (S * R)) ops1 ops2 s s1 r1 r2 : run step s ops1 = Ok (s1, r1) -> outputs step s1 ops2 = Ok r2 -> outputs step s (ops1 ++ ops2) = Ok (r1 ++ r2).
Proof.
  unfold outputs. destruct (run step s1 ops2) as [[s2 x]| |] eqn:E2; cbn; intros E1 Q; try discriminate. injection Q as <-.
  now rewrite (run_app_ok _ _ _ _ _ _ _ _ E1 E2).
Qed.
