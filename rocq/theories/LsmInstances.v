(** Sizes used in the examples: keys of one byte, values of two. *)
From Verif Require Export LsmTableModel KeyInstances.

#[export] Instance nat_sizes : Sizes nat nat := {| ksize _ := 1%N; vsize v := match sv_data v with Some _ => 10 | None => 9 end%N |}.
Definition put (v : nat) (t : N) : sval nat := mkSval (Some v) t.
Definition del (t : N) : sval nat := mkSval None t.
