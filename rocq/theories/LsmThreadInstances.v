(** Concrete calls and turns for PropertiesLsmThread.v. *)
From Verif Require Export LsmThreadClaims LeveledInstances SizeTieredInstances.

Definition thread_ops : list (lsm_op nat nat) :=
  [LInsert 1 10; LInsert 2 20; LInsert 3 30; LRemove 1; LInsert 4 40; LGet 1; LGet 4; LInsert 5 50; LLen].
(** The thread, started by the fourth call, stores its result while the sixth is under way; the last call waits for its end. *)
Definition in_get : list turn := repeat Main 25 ++ [Publish].
Definition thread_turns : list turn := in_get ++ repeat Main 20 ++ [Finish] ++ repeat Main 9.

Definition tier_thread_ops : list (lsm_op nat nat) := tier_crash ++ [LGet 1; LGet 9; LLen].
Definition tier_thread_ops2 : list (lsm_op nat nat) := tier_crash2 ++ [LGet 1; LGet 9; LLen].
Definition in_tier_get : list turn := repeat Main 42 ++ [Publish].
Definition tier_thread_turns : list turn := in_tier_get ++ repeat Main 6 ++ [Finish] ++ repeat Main 9.

Definition call_under_way {K V} (St : strategy K V) (w : world K V St) : bool := match w_call St w with Some _ => true | None => false end.
Definition stored {K V} (St : strategy K V) (w : world K V St) : bool :=
  match thr (w_map St w), nxt (w_map St w) with TPub, Some _ => true | _, _ => false end.
