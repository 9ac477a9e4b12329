(** Concrete schedules for the stack on memory with views *)
From Verif Require Export StackWeakModel.

Definition wcalls {T} (tr : list (wevent T)) : list (stack_event T) :=
  flat_map (fun e => match e with WCall t c => [EInv t c] | WRet t o => [ERet t o] | WSync _ _ => [] end) tr.

(** Thread 0 pushes 7; afterwards thread 1, which does not know of it, pops and reads the first message of head. *)
Definition stale_ls : list (label nat) :=
  [LCall 0 (CPush 7); LStep 0 0 []; LStep 0 0 []; LStep 0 0 []; LStep 0 0 []; LStep 0 0 []; LStep 0 0 []; LStep 0 0 [];
   LCall 1 CPop; LStep 1 0 []; LStep 1 0 []; LStep 1 0 []].
Definition stale_tr : list (wevent nat) := [WCall 0 (CPush 7); WRet 0 OUnit; WCall 1 CPop; WRet 1 (OPop None)].

(** Threads 0 and 1 push 10 and 11; the compare-and-set of thread 1 fails once because it read an old head.  Thread 2
    reads an old head, fails, and then pops 11.  Thread 3 calls try_pop and gets the node of 10.  The node of 11 is
    destroyed and thread 0 uses its address again for 12.  Thread 3 fails and then pops 12.  Thread 4 hears of threads
    0 to 3 and asks for the length. *)
Definition busy_ls : list (label nat) :=
  [LCall 0 (CPush 10); LCall 1 (CPush 11); LStep 0 0 []; LStep 1 1 []; LStep 0 0 []; LStep 1 0 [];
   LStep 0 0 []; LStep 0 0 []; LStep 0 0 []; LStep 0 0 []; LStep 0 0 [];
   LStep 1 0 []; LStep 1 0 []; LStep 1 1 []; LStep 1 1 []; LStep 1 0 []; LStep 1 1 []; LStep 1 0 []; LStep 1 0 [];
   LCall 2 CPop; LStep 2 0 []; LStep 2 1 []; LStep 2 1 []; LStep 2 1 []; LStep 2 2 []; LStep 2 2 []; LStep 2 2 []; LStep 2 2 [];
   LStep 2 0 []; LStep 2 0 []; LStep 2 0 []; LStep 2 0 [];
   LCall 3 CPop; LStep 3 0 []; LStep 3 3 []; LStep 3 1 []; LFree 1;
   LCall 0 (CPush 12); LStep 0 1 []; LStep 0 0 []; LStep 0 3 []; LStep 0 0 []; LStep 0 3 [];
   LStep 3 3 []; LStep 3 4 []; LStep 3 4 []; LStep 3 1 []; LStep 3 4 []; LStep 0 0 []; LStep 0 0 [];
   LStep 3 0 []; LStep 3 0 []; LStep 3 0 []; LStep 3 0 []; LSync 0 4; LSync 1 4; LSync 2 4; LSync 3 4; LCall 4 CLen; LStep 4 0 []; LStep 4 5 []; LStep 4 0 []].
