(** Model of /repo/src/elliptic_curve.rs (Display is in M_Display.v) and
    /repo/src/secp256k1.rs. *)
From Verif Require Import Prelude M_Bigint M_Variable M_Term M_Poly.

(** src/elliptic_curve.rs:27-33  struct ECPoint; derive(PartialEq) is componentwise. *)
Record point := mkPt { px : Z; py : Z; pz : Z }.
Definition point_eqb (a b : point) : bool :=
  (px a =? px b) && (py a =? py b) && (pz a =? pz b).

(** src/elliptic_curve.rs:15-25  struct EllipticCurve. *)
Record curve := mkCurve { ca : Z; cb : Z; cp : Z; cpol : poly; cpoints : list point }.

(** src/elliptic_curve.rs:264-270  ECPoint::infinity;  271-273  is_infinity. *)
Definition infinity : point := mkPt 0 1 0.
Definition is_infinity (P : point) : bool := pz P =? 0.

(** src/elliptic_curve.rs:53-65  EllipticCurve::new_raw: no checks, no points. *)
Definition new_raw (a b p : Z) : curve := mkCurve a b p (weierstrass a b) [].

(** src/elliptic_curve.rs:67-72  j_invariant. *)
Definition ec_j_invariant (E : curve) : res Z :=
  a3 <- power_i32 (ca E) 3 ;;
  let n := 4 * a3 in
  b2 <- power_i32 (cb E) 2 ;;
  let d := n + 27 * b2 in
  i <- inverse d (cp E) ;;
  let j := 1728 * n * i in
  mod_floor j (cp E).

(** src/elliptic_curve.rs:74-85  is_on_curve. *)
Definition is_on_curve (E : curve) (P : point) : res bool :=
  if is_infinity P then Ok true
  else
    c <- eval_xy (cpol E) (px P) (py P) ;;
    cc <- mod_floor c (cp E) ;;
    d <- power_i32 (py P) 2 ;;
    dd <- mod_floor d (cp E) ;;
    let diff := cc - dd in
    r <- mod_floor diff (cp E) ;;
    Ok (r =? 0).

(** src/elliptic_curve.rs:87-93  canonicalize. *)
Definition canonicalize (E : curve) (P : point) : res point :=
  x <- mod_floor (px P) (cp E) ;;
  y <- mod_floor (py P) (cp E) ;;
  z <- mod_floor (pz P) (cp E) ;;
  Ok (mkPt x y z).

(** src/elliptic_curve.rs:95-135  plus.  Line 106 (second argument infinity) returns
    (point1.x, point2.y, point2.z). *)
Definition plus (E : curve) (P1 P2 : point) : res point :=
  on1 <- is_on_curve E P1 ;;
  _ <- assertb on1 ;;
  on2 <- is_on_curve E P2 ;;
  _ <- assertb on2 ;;
  if is_infinity P1 then Ok (mkPt (px P2) (py P2) (pz P2))
  else if is_infinity P2 then Ok (mkPt (px P1) (py P2) (pz P2))
  else
    p1 <- canonicalize E P1 ;;
    p2 <- canonicalize E P2 ;;
    let x1 := px p1 in
    let x2 := px p2 in
    let y1 := py p1 in
    let y2 := py p2 in
    if negb (x1 =? x2) then
      i <- inverse (x2 - x1) (cp E) ;;
      let m := (y2 - y1) * i in
      m2 <- power_i32 m 2 ;;
      let x3 := m2 - x1 - x2 in
      let y3 := m * (x1 - x3) - y1 in
      x3' <- mod_floor x3 (cp E) ;;
      y3' <- mod_floor y3 (cp E) ;;
      Ok (mkPt x3' y3' 1)
    else if negb (y1 =? y2) || (y1 =? 0) then Ok infinity
    else
      x1s <- power_i32 x1 2 ;;
      i <- inverse (2 * y1) (cp E) ;;
      let m := (3 * x1s + ca E) * i in
      m2 <- power_i32 m 2 ;;
      let x3 := m2 - 2 * x1 in
      let y3 := m * (x1 - x3) - y1 in
      x3' <- mod_floor x3 (cp E) ;;
      y3' <- mod_floor y3 (cp E) ;;
      Ok (mkPt x3' y3' 1).

(** src/elliptic_curve.rs:137-146  negate. *)
Definition negate (E : curve) (P : point) : res point :=
  if is_infinity P then Ok P
  else
    y <- mod_floor (- py P) (cp E) ;;
    Ok (mkPt (px P) y (pz P)).

(** src/elliptic_curve.rs:155-167: the loop over y with its break. *)
Fixpoint find_y (E : curve) (x xpol : Z) (ys : list Z) (pts : list point) : res (list point) :=
  match ys with
  | [] => Ok pts
  | y :: r =>
      y2 <- power_i32 y 2 ;;
      ypol <- mod_floor y2 (cp E) ;;
      if ypol =? xpol then
        let pt := mkPt x y 1 in
        let pts := pts ++ [pt] in
        mp <- negate E pt ;;
        Ok (if negb (point_eqb mp pt) then pts ++ [mp] else pts)
      else find_y E x xpol r pts
  end.
(** src/elliptic_curve.rs:148-170  create_points (appends to the existing points). *)
Definition create_points (E : curve) : res curve :=
  pts <- foldM (fun pts x =>
           x3 <- power_i32 x 3 ;;
           let xpol := x3 + ca E * x + cb E in
           xpol <- mod_floor xpol (cp E) ;;
           find_y E x xpol (zrange 0 (cp E)) pts)
         (zrange 0 (cp E)) (cpoints E) ;;
  Ok (mkCurve (ca E) (cb E) (cp E) (cpol E) (pts ++ [infinity])).

(** p.to_u64().unwrap() *)
Definition to_u64 (p : Z) : res Z :=
  if (0 <=? p) && (p <? 18446744073709551616) then Ok p else Panic.

(** src/elliptic_curve.rs:36-51  EllipticCurve::new. *)
Definition ec_new (a b p : Z) : res curve :=
  _ <- assertb (2 <=? p) ;;
  u <- to_u64 p ;;
  _ <- assertb (is_prime u) ;;
  create_points (mkCurve a b p (weierstrass a b) []).

(** src/elliptic_curve.rs:172-180  points, cardinality. *)
Definition ec_points (E : curve) : list point := cpoints E.
Definition cardinality (E : curve) : Z := Z.of_nat (length (cpoints E)).

(** src/elliptic_curve.rs:195-203: double-and-add loop. *)
Fixpoint multiply_loop (fuel : nat) (E : curve) (e : Z) (b r : point) : res point :=
  if 1 <? e then
    match fuel with
    | O => NoFuel
    | S f =>
        r <- (if Z.odd e then plus E r b else Ok r) ;;
        b <- plus E b b ;;
        multiply_loop f E (Z.quot e 2) b r
    end
  else plus E r b.
(** src/elliptic_curve.rs:184-204 for n >= 0. *)
Definition multiply_nonneg (E : curve) (P : point) (n : Z) : res point :=
  if n =? 0 then Ok infinity
  else if n =? 1 then Ok P
  else multiply_loop (halvings n) E n P infinity.
(** src/elliptic_curve.rs:182-204  multiply_scalar: for n < 0 it recurses on -n and
    returns plus(infinity, (-n) P). *)
Definition multiply_scalar (E : curve) (P : point) (n : Z) : res point :=
  if n =? 0 then Ok infinity
  else if n <? 0 then
    minus_np <- multiply_nonneg E P (- n) ;;
    plus E infinity minus_np
  else multiply_nonneg E P n.

(** src/elliptic_curve.rs:213-219: loop of point_order. *)
Fixpoint point_order_loop (fuel : nat) (E : curve) (P : point) (x : Z) (r : point) : res Z :=
  match fuel with
  | O => NoFuel
  | S f =>
      r <- plus E P r ;;
      if is_infinity r then Ok x else point_order_loop f E P (x + 1) r
  end.
(** src/elliptic_curve.rs:206-220  point_order. *)
Definition point_order (fuel : nat) (E : curve) (P : point) : res Z :=
  if is_infinity P then Ok 1 else point_order_loop fuel E P 2 P.

(** src/elliptic_curve.rs:222-230  division_points (ECPointVec is a wrapped Vec). *)
Definition division_points (E : curve) (order : Z) : res (list point) :=
  foldM (fun vec P =>
           Q <- multiply_scalar E P order ;;
           Ok (if point_eqb Q infinity then vec ++ [P] else vec))
        (cpoints E) [].

(** src/elliptic_curve.rs:238-247: loop body of isogeny (div_floor as in the code). *)
Definition isogeny_step (E : curve) (is_odd_order : bool) (s : Z * Z) (P : point) : res (Z * Z) :=
  let (v, w) := s in
  if negb (is_infinity P) then
    x2 <- power_i32 (px P) 2 ;;
    gpx <- div_floor (3 * x2 + ca E) (cp E) ;;
    gpy <- div_floor (- 2 * py P) (cp E) ;;
    gpy2 <- power_i32 gpy 2 ;;
    up <- div_floor gpy2 (cp E) ;;
    let vp := if is_odd_order then gpx else gpx * 2 in
    Ok (v + vp, w + (up + px P * vp))
  else Ok s.
(** src/elliptic_curve.rs:232-253  isogeny. *)
Definition isogeny (E : curve) (order : Z) : res curve :=
  points <- division_points E order ;;
  '(v, w) <- foldM (isogeny_step E (Z.odd order)) points (0, 0) ;;
  v <- div_floor v (cp E) ;;
  w <- div_floor w (cp E) ;;
  a <- div_floor (ca E - 5 * v) (cp E) ;;
  b <- div_floor (cb E - 7 * w) (cp E) ;;
  ec_new a b (cp E).

(** src/secp256k1.rs:21-42  Secp256k1::new: the curve and its base point. *)
Definition secp256k1_new : res (curve * point) :=
  p256 <- power_i32 2 256 ;;
  p32 <- power_i32 2 32 ;;
  let p := p256 - p32 - 977 in
  let ec := new_raw 0 7 p in
  t76 <- power_i32 10 ((12 * 3 + 2) * 2) ;;
  t38 <- power_i32 10 (12 * 3 + 2) ;;
  let gx := 5 * t76 + 50662630222773436695787188951685343262 * t38
              + 50603453777594175500187360389116729240 in
  let gy := 3 * t76 + 26705100207588169780830851305070431844 * t38
              + 71273380659243275938904335757337482424 in
  Ok (ec, mkPt gx gy 1).
