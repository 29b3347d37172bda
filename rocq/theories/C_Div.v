(** Properties C48-C50: division polynomials *)
From Coq Require Import Znumtheory ZifyBool Setoid Morphisms Ring.
From Verif Require Import Prelude M_Bigint M_Variable M_Term M_Poly M_DivPoly Spec P_Bigint P_Variable P_FSum P_Poly P_Rem P_PolyProps P_Subst P_Subst2 P_Subst3 P_SubstProps P_DivPoly P_DivPoly2 P_DivPoly3 P_DivPoly4 P_DivPoly5.
From Verif Require Import P_DivProps.
Open Scope Z_scope.

(** C48: psi(n) returns for every n up to 65536; for odd n it is a polynomial in x alone, for even n it is 2y times a
    polynomial in x (so no y-power above 1 occurs). *)
Theorem C48_psi_odd : forall a b n, 0 <= n <= 65536 -> Z.odd n = true -> exists r, psi a b n = Ok r /\ sorted r /\ only_x r.
Proof. exact c48_psi_odd. Qed.
Print Assumptions C48_psi_odd.
Theorem C48_psi_even : forall a b n, 0 <= n <= 65536 -> Z.odd n = false -> exists r g, psi a b n = Ok r /\ sorted r /\
  (forall m c, In (m, c) r -> 0 <= mx m /\ my m = 1 /\ mq m = 0 /\ mv m = None) /\ only_x g /\ feq r (conv (fmono 2 0 1 0) g).
Proof. exact c48_psi_even. Qed.
Print Assumptions C48_psi_even.
(** C48: the first five division polynomials are the classical ones. *)
Theorem C48_psi_base : forall a b,
  psi a b 0 = Ok [] /\ psi a b 1 = Ok (fmono 1 0 0 0) /\ psi a b 2 = Ok (fmono 2 0 1 0) /\
  (exists r, psi a b 3 = Ok r /\ feq r (fmono 3 4 0 0 ++ fmono (6 * a) 2 0 0 ++ fmono (12 * b) 1 0 0 ++ fmono (- a ^ 2) 0 0 0)) /\
  (exists r, psi a b 4 = Ok r /\ feq r (conv (fmono 4 0 1 0)
     (fmono 1 6 0 0 ++ fmono (5 * a) 4 0 0 ++ fmono (20 * b) 3 0 0 ++ fmono (-5 * a ^ 2) 2 0 0 ++ fmono (-4 * a * b) 1 0 0 ++ fmono (-8 * b ^ 2 - a ^ 3) 0 0 0))).
Proof. exact c48_psi_base. Qed.
Print Assumptions C48_psi_base.
Theorem C48_psi_negative : forall a b n, n < 0 -> psi a b n = Panic.
Proof. exact c48_psi_negative. Qed.
Print Assumptions C48_psi_negative.
(** C48: psi(2m+1) = psi(m+2) psi(m)^3 - psi(m-1) psi(m+1)^3 modulo the curve equation. *)
Theorem C48_psi_rec_odd : forall a b m, 1 <= m -> 2 * m + 1 <= 65536 ->
  exists r e f g h, psi a b (2 * m + 1) = Ok r /\ psi a b (m + 2) = Ok e /\ psi a b m = Ok f /\ psi a b (m - 1) = Ok g /\ psi a b (m + 1) = Ok h /\
  cong_ideal 0 (fcurve a b) r (fsub (conv e (fpow f 3)) (conv g (fpow h 3))).
Proof. exact c48_psi_rec_odd. Qed.
Print Assumptions C48_psi_rec_odd.
(** C48: 2y psi(2m) = psi(m) (psi(m+2) psi(m-1)^2 - psi(m-2) psi(m+1)^2) modulo the curve equation: the floor division
    by 2y in the code loses nothing. *)
Theorem C48_psi_rec_even : forall a b m, 2 <= m -> 2 * m <= 65536 ->
  exists r e f g h i, psi a b (2 * m) = Ok r /\ psi a b (m + 2) = Ok e /\ psi a b (m - 1) = Ok f /\ psi a b (m - 2) = Ok g /\ psi a b (m + 1) = Ok h /\ psi a b m = Ok i /\
  cong_ideal 0 (fcurve a b) (conv (fmono 2 0 1 0) r) (conv i (fsub (conv e (fpow f 2)) (conv g (fpow h 2)))).
Proof. exact c48_psi_rec_even. Qed.
Print Assumptions C48_psi_rec_even.
Example C48_case : psi 2 3 5 <> Panic /\ exists r, psi 2 3 5 = Ok r /\ only_x r /\ sorted r.
Proof. exact c48_case. Qed.
(** C49: degree and leading coefficient. *)
Theorem C49_odd : forall a b n r, 1 <= n <= 65536 -> Z.odd n = true -> psi a b n = Ok r ->
  highest_term_x r = mkTerm n (mkMono ((n ^ 2 - 1) / 2) 0 0 None) /\ degree_x r = Ok ((n ^ 2 - 1) / 2) /\
  (forall m c, In (m, c) r -> mx m <= (n ^ 2 - 1) / 2) /\ coef r (mkMono ((n ^ 2 - 1) / 2) 0 0 None) = n.
Proof. exact c49_odd. Qed.
Print Assumptions C49_odd.
Theorem C49_even : forall a b n r, 2 <= n <= 65536 -> Z.odd n = false -> psi a b n = Ok r ->
  highest_term_x r = mkTerm n (mkMono ((n ^ 2 - 4) / 2) 1 0 None) /\
  (forall m c, In (m, c) r -> mx m <= (n ^ 2 - 4) / 2) /\ coef r (mkMono ((n ^ 2 - 4) / 2) 1 0 None) = n.
Proof. exact c49_even. Qed.
Print Assumptions C49_even.
Example C49_case : exists r, psi 7 (-2) 7 = Ok r /\ highest_term_x r = mkTerm 7 (mkMono 24 0 0 None).
Proof. exact c49_case. Qed.
(** C50: phi(n) = x psi(n)^2 - psi(n+1) psi(n-1) modulo the curve equation; it is a polynomial in x, monic of degree n^2. *)
Theorem C50_phi : forall a b n, 1 <= n <= 46340 -> exists r pn u v, phi a b n = Ok r /\ psi a b n = Ok pn /\ psi a b (n + 1) = Ok u /\ psi a b (n - 1) = Ok v /\
  sorted r /\ only_x r /\ cong_ideal 0 (fcurve a b) r (fsub (conv (fmono 1 1 0 0) (fpow pn 2)) (conv u v)) /\
  highest_term_x r = mkTerm 1 (mkMono (n ^ 2) 0 0 None).
Proof. exact c50_phi. Qed.
Print Assumptions C50_phi.
(** C50: 4y omega(n) = psi(n+2) psi(n-1)^2 - psi(n-2) psi(n+1)^2 modulo the curve equation: the floor division by 4y loses
    nothing.  omega(n) is y times a polynomial in x for odd n and a polynomial in x for even n, with leading coefficient 1. *)
Theorem C50_omega : forall a b n, 2 <= n <= 37837 -> exists r u v s t, omega a b n = Ok r /\
  psi a b (n + 2) = Ok u /\ psi a b (n - 1) = Ok v /\ psi a b (n - 2) = Ok s /\ psi a b (n + 1) = Ok t /\
  sorted r /\ (forall m c, In (m, c) r -> 0 <= mx m /\ my m = (if Z.odd n then 1 else 0) /\ mq m = 0 /\ mv m = None) /\
  cong_ideal 0 (fcurve a b) (conv (fmono 4 0 1 0) r) (fsub (conv u (fpow v 2)) (conv s (fpow t 2))) /\
  highest_term_x r = (if Z.odd n then mkTerm 1 (mkMono (3 * (n ^ 2 - 1) / 2) 1 0 None) else mkTerm 1 (mkMono (3 * n ^ 2 / 2) 0 0 None)).
Proof. exact c50_omega. Qed.
Print Assumptions C50_omega.
(** For n = 1 (psi(-1) is not defined by the code) omega is y. *)
Theorem C50_omega_one : forall a b, omega a b 1 = Ok (fmono 1 0 1 0).
Proof. exact c50_omega_one. Qed.
Print Assumptions C50_omega_one.
Theorem C50_panics : forall a b n, n < 1 -> phi a b n = Panic /\ omega a b n = Panic.
Proof. exact c50_panics. Qed.
Print Assumptions C50_panics.
Example C50_case : exists r, omega 1 1 2 = Ok r /\ highest_term_x r = mkTerm 1 (mkMono 6 0 0 None) /\ phi 1 1 2 = Ok [(mkMono 0 0 0 None, 1); (mkMono 1 0 0 None, -8); (mkMono 2 0 0 None, -2); (mkMono 4 0 0 None, 1)].
Proof. exact c50_case. Qed.
