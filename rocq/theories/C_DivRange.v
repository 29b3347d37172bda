(** Property theorem C106: exact return ranges of psi, phi, omega. *)
From Coq Require Import Znumtheory ZifyBool.
From Verif Require Import Prelude M_Bigint M_Variable M_Term M_Poly M_DivPoly Spec P_Bigint P_DivProps P_ModRet3 P_DivRange.
From Verif Require Import P_DivRangeProps.
Open Scope Z_scope.

(** C106: whatever the curve coefficients, psi(n) returns exactly for 0 <= n <= 65536 and panics for every other n (negative n:
    the assertion; larger n: an exponent leaves i32).  It never returns a wrong polynomial by wrapping and never loops. *)
Theorem C106_psi : forall a b n, (0 <= n <= 65536 -> exists r, psi a b n = Ok r) /\ (~ (0 <= n <= 65536) -> psi a b n = Panic).
Proof. exact c106_psi. Qed.
Print Assumptions C106_psi.
(** C106: phi(n) returns exactly for 1 <= n <= 46340, omega(n) exactly for 1 <= n <= 37837. *)
Theorem C106_phi : forall a b n, (1 <= n <= 46340 -> exists r, phi a b n = Ok r) /\ (~ (1 <= n <= 46340) -> phi a b n = Panic).
Proof. exact c106_phi. Qed.
Print Assumptions C106_phi.
Theorem C106_omega : forall a b n, (1 <= n <= 37837 -> exists r, omega a b n = Ok r) /\ (~ (1 <= n <= 37837) -> omega a b n = Panic).
Proof. exact c106_omega. Qed.
Print Assumptions C106_omega.
Example C106_case : (exists r, psi 2 3 65536 = Ok r) /\ psi 2 3 65537 = Panic /\ (exists r, phi 2 3 46340 = Ok r) /\ phi 2 3 46341 = Panic /\
  (exists r, omega 2 3 37837 = Ok r) /\ omega 2 3 37838 = Panic.
Proof. exact c106_case. Qed.
