(** C82-C85, C48, C50: division polynomials and multiplication of points. *)
From Coq Require Import Znumtheory ZifyBool.
From Verif Require Import Prelude M_Bigint M_Variable M_Term M_Poly M_DivPoly M_Curve Spec SpecCurve P_Bigint P_Variable P_FSum P_Poly P_Subst2 P_Subst3 P_DivPoly P_DivPoly5 P_DivProps P_Modular P_Group P_Fp P_Curve P_Curve2 P_Curve3 P_Curve4 P_CurveProps P_DivVal P_Mul.
From Verif Require Import P_MulProps.
Open Scope Z_scope.

(** C48: at every point of the curve over Z/n, for every modulus n (0 included: over the integers), the values of psi satisfy the recurrences. *)
Theorem C48_psi_rec_odd_values : forall a b n x y m, (n | y ^ 2 - (x ^ 3 + a * x + b)) -> 2 <= m -> 2 * m + 1 <= 65536 ->
  exists r e f g h r' e' f' g' h', psi a b (2 * m + 1) = Ok r /\ psi a b (m + 2) = Ok e /\ psi a b m = Ok f /\ psi a b (m - 1) = Ok g /\ psi a b (m + 1) = Ok h /\
  eval_xy r x y = Ok r' /\ eval_xy e x y = Ok e' /\ eval_xy f x y = Ok f' /\ eval_xy g x y = Ok g' /\ eval_xy h x y = Ok h' /\
  (n | r' - (e' * f' ^ 3 - g' * h' ^ 3)).
Proof. exact c48_psi_rec_odd_values. Qed.
Print Assumptions C48_psi_rec_odd_values.
Theorem C48_psi_rec_even_values : forall a b n x y m, (n | y ^ 2 - (x ^ 3 + a * x + b)) -> 3 <= m -> 2 * m <= 65536 ->
  exists r e f g h i r' e' f' g' h' i', psi a b (2 * m) = Ok r /\ psi a b (m + 2) = Ok e /\ psi a b (m - 1) = Ok f /\ psi a b (m - 2) = Ok g /\ psi a b (m + 1) = Ok h /\ psi a b m = Ok i /\
  eval_xy r x y = Ok r' /\ eval_xy e x y = Ok e' /\ eval_xy f x y = Ok f' /\ eval_xy g x y = Ok g' /\ eval_xy h x y = Ok h' /\ eval_xy i x y = Ok i' /\
  (n | 2 * y * r' - i' * (e' * f' ^ 2 - g' * h' ^ 2)).
Proof. exact c48_psi_rec_even_values. Qed.
Print Assumptions C48_psi_rec_even_values.
(** C50: the values of phi and omega at every point of the curve over Z/n. *)
Theorem C50_phi_values : forall a b n x y k, (n | y ^ 2 - (x ^ 3 + a * x + b)) -> 1 <= k <= 46340 ->
  exists r f u w r' f' u' w', phi a b k = Ok r /\ psi a b k = Ok f /\ psi a b (k + 1) = Ok u /\ psi a b (k - 1) = Ok w /\
  eval_xy r x y = Ok r' /\ eval_xy f x y = Ok f' /\ eval_xy u x y = Ok u' /\ eval_xy w x y = Ok w' /\ (n | r' - (x * f' ^ 2 - u' * w')).
Proof. exact c50_phi_values. Qed.
Print Assumptions C50_phi_values.
Theorem C50_omega_values : forall a b n x y k, (n | y ^ 2 - (x ^ 3 + a * x + b)) -> 2 <= k <= 37837 ->
  exists r u w s t r' u' w' s' t', omega a b k = Ok r /\ psi a b (k + 2) = Ok u /\ psi a b (k - 1) = Ok w /\ psi a b (k - 2) = Ok s /\ psi a b (k + 1) = Ok t /\
  eval_xy r x y = Ok r' /\ eval_xy u x y = Ok u' /\ eval_xy w x y = Ok w' /\ eval_xy s x y = Ok s' /\ eval_xy t x y = Ok t' /\ (n | 4 * y * r' - (u' * w' ^ 2 - s' * t' ^ 2)).
Proof. exact c50_omega_values. Qed.
Print Assumptions C50_omega_values.
(** C82: for every finite point P of an elliptic curve and every n, the n-th division polynomial vanishes at P exactly when n P = O. *)
Theorem C82_torsion : forall a b p E P n, elliptic a b p -> curve_of a b p E -> is_on_curve E P = Ok true -> is_infinity P = false -> 1 <= n <= 65534 ->
  exists r v, psi a b n = Ok r /\ eval_xy r (px P) (py P) = Ok v /\ ((p | v) <-> ec_mult a p (affine p P) (Z.to_nat n) None).
Proof. exact c82_torsion. Qed.
Print Assumptions C82_torsion.
(** C83: n P = (phi_n / psi_n^2, omega_n / psi_n^3) at every finite point P with n P <> O. *)
Theorem C83_coordinates : forall a b p E P n X Y, elliptic a b p -> curve_of a b p E -> is_on_curve E P = Ok true -> is_infinity P = false -> 1 <= n <= 37837 ->
  ec_mult a p (affine p P) (Z.to_nat n) (Some (X, Y)) ->
  exists r f w v s t, psi a b n = Ok r /\ phi a b n = Ok f /\ omega a b n = Ok w /\
    eval_xy r (px P) (py P) = Ok v /\ eval_xy f (px P) (py P) = Ok s /\ eval_xy w (px P) (py P) = Ok t /\
    ~ (p | v) /\ (p | X * v ^ 2 - s) /\ (p | Y * v ^ 3 - t).
Proof. exact c83_coordinates. Qed.
Print Assumptions C83_coordinates.
(** C83: the same for the result of multiply_scalar, whenever it is a finite point. *)
Theorem C83_multiply_scalar : forall a b p E P n R, elliptic a b p -> curve_of a b p E -> is_on_curve E P = Ok true -> is_infinity P = false -> 1 <= n <= 37837 ->
  multiply_scalar E P n = Ok R -> is_infinity R = false ->
  exists r f w v s t, psi a b n = Ok r /\ phi a b n = Ok f /\ omega a b n = Ok w /\
    eval_xy r (px P) (py P) = Ok v /\ eval_xy f (px P) (py P) = Ok s /\ eval_xy w (px P) (py P) = Ok t /\
    ~ (p | v) /\ (p | px R * v ^ 2 - s) /\ (p | py R * v ^ 3 - t).
Proof. exact c83_multiply_scalar. Qed.
Print Assumptions C83_multiply_scalar.
(** C84: point_order is the index of the first division polynomial that vanishes at the point. *)
Theorem C84_point_order : forall a b p E P n, elliptic a b p -> curve_of a b p E -> is_on_curve E P = Ok true -> is_infinity P = false -> 1 <= n <= 65534 ->
  ((exists fuel, point_order fuel E P = Ok n) <->
   (exists r v, psi a b n = Ok r /\ eval_xy r (px P) (py P) = Ok v /\ (p | v)) /\
   (forall k, 1 <= k < n -> exists r v, psi a b k = Ok r /\ eval_xy r (px P) (py P) = Ok v /\ ~ (p | v))).
Proof. exact c84_point_order. Qed.
Print Assumptions C84_point_order.
(** C85: division_points(n) contains the point at infinity and every listed point at which psi_n vanishes ... *)
Theorem C85_contains_roots : forall a b p E n, elliptic a b p -> ec_new a b p = Ok E -> 1 <= n <= 65534 ->
  exists L r, division_points E n = Ok L /\ psi a b n = Ok r /\
  forall P, In P (ec_points E) -> P = infinity \/ (exists v, eval_xy r (px P) (py P) = Ok v /\ (p | v)) -> In P L.
Proof. exact c85_contains_roots. Qed.
Print Assumptions C85_contains_roots.
(** ... and nothing else, when the curve has no point of order 2 or n is a power of two. *)
Theorem C85_exactly_roots : forall a b p E n, elliptic a b p -> ec_new a b p = Ok E -> 1 <= n <= 65534 ->
  (forall P, In P (ec_points E) -> ~ ec_order a p (affine p P) 2) \/ (exists k, 0 <= k /\ n = 2 ^ k) ->
  exists L r, division_points E n = Ok L /\ psi a b n = Ok r /\ NoDup L /\
  forall P, In P L <-> In P (ec_points E) /\ (P = infinity \/ exists v, eval_xy r (px P) (py P) = Ok v /\ (p | v)).
Proof. exact c85_exactly_roots. Qed.
Print Assumptions C85_exactly_roots.
(** On y^2 = x^3 + x + 1 over GF(5): psi_3(2,1) = 95 and 3 (2,1) = O; 2 (0,1) = (4,2) = (1/2^2, -9/2^3). *)
Example C82_case : is_on_curve (new_raw 1 1 5) (mkPt 2 1 1) = Ok true /\ exists r v, psi 1 1 3 = Ok r /\ eval_xy r 2 1 = Ok v /\ v = 95 /\ multiply_scalar (new_raw 1 1 5) (mkPt 2 1 1) 3 = Ok infinity.
Proof. exact c82_case. Qed.
Example C83_case : multiply_scalar (new_raw 1 1 5) (mkPt 0 1 1) 2 = Ok (mkPt 4 2 1) /\
  exists r f w, psi 1 1 2 = Ok r /\ phi 1 1 2 = Ok f /\ omega 1 1 2 = Ok w /\ eval_xy r 0 1 = Ok 2 /\ eval_xy f 0 1 = Ok 1 /\ eval_xy w 0 1 = Ok (-9).
Proof. exact c83_case. Qed.
Example C84_case : point_order 9 (new_raw 1 1 5) (mkPt 2 1 1) = Ok 3 /\ elliptic 1 1 5.
Proof. exact c84_case. Qed.
Example C85_case : exists E, ec_new 1 1 5 = Ok E /\ division_points E 3 = Ok [mkPt 2 1 1; mkPt 2 4 1; infinity] /\ (exists r, psi 1 1 3 = Ok r /\ eval_xy r 2 4 = Ok 95).
Proof. exact c85_case. Qed.
