(** One more lemma behind C10. *)
From Verif Require Import Prelude M_Variable.
Open Scope Z_scope.
Lemma index_from_variable_empty p v : sv_empty v = true -> index_from_variable p v = Ok None.
Proof. intros H. unfold index_from_variable. rewrite H. reflexivity. Qed.
