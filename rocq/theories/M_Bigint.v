(** Model of /repo/src/bigint.rs. *)
From Verif Require Import Prelude.

(** Number of halvings after which [e > 1] must be false: [while e > 1 { e /= 2 }]
    runs log2 e times.  (Model-only: step bound of the loops below.) *)
Definition halvings (e : Z) : nat := S (Z.to_nat (Z.log2 e)).

(** src/bigint.rs:36-43 (BigInt exponent) and 56-63 (i32 exponent): the loop
    [while e > 1 { if e.is_odd() { r *= b }; b = b*b; e /= 2 }] and the final [r * b].
    The two Rust copies are textually identical; on i32, [e /= 2] and [is_odd] cannot overflow. *)
Fixpoint power_loop (fuel : nat) (e b r : Z) : res Z :=
  if 1 <? e then
    match fuel with
    | O => NoFuel
    | S f =>
        let r := if Z.odd e then r * b else r in
        power_loop f (Z.quot e 2) (b * b) r
    end
  else Ok (r * b).

(** src/bigint.rs:22-46  impl Power<BigInt>/Power<&BigInt> for BigInt. *)
Definition power (b n : Z) : res Z :=
  if n =? 0 then Ok 1 else power_loop (halvings n) n b 1.

(** src/bigint.rs:48-66  impl Power<i32> for BigInt. Same body; the argument is an i32. *)
Definition power_i32 (b n : Z) : res Z :=
  if n =? 0 then Ok 1 else power_loop (halvings n) n b 1.

(** src/bigint.rs:76-84 : loop of power_modulo. *)
Fixpoint power_modulo_loop (fuel : nat) (p e b r : Z) : res Z :=
  if 1 <? e then
    match fuel with
    | O => NoFuel
    | S f =>
        r <- (if Z.odd e then mod_floor (r * b) p else Ok r) ;;
        b <- mod_floor (b * b) p ;;
        power_modulo_loop f p (Z.quot e 2) b r
    end
  else mod_floor (r * b) p.

(** src/bigint.rs:68-87  impl PowerModulo for BigInt. *)
Definition power_modulo (b n p : Z) : res Z :=
  if n =? 0 then Ok 1 else power_modulo_loop (halvings n) p n b 1.

(** src/bigint.rs:89-94  impl Inverse for BigInt. *)
Definition inverse (a p : Z) : res Z :=
  _ <- assertb (2 <=? p) ;;
  power_modulo a (p - 2) p.

(** src/bigint.rs:103-111  extended_gcd: recursion on (b % a, a), truncated [%] and [/].
    [a] is non-zero where % and / are applied, so they cannot panic. *)
Fixpoint extended_gcd_loop (fuel : nat) (a b : Z) : res (Z * Z * Z) :=
  if a =? 0 then Ok (b, 0, 1)
  else
    match fuel with
    | O => NoFuel
    | S f =>
        let r := Z.rem b a in
        let q := Z.quot b a in
        '(g, x, y) <- extended_gcd_loop f r a ;;
        Ok (g, y - q * x, x)
    end.

(** Model-only step bound: the first argument at least halves every two calls. *)
Definition egcd_fuel (a : Z) : nat := (2 * Z.to_nat (Z.log2 (Z.abs a)) + 3)%nat.

Definition extended_gcd (a b : Z) : res (Z * Z * Z) :=
  extended_gcd_loop (egcd_fuel a) a b.

(** src/bigint.rs:113-118  struct ModResult { l, r }. *)
Record mod_result := mkMod { mr_l : Z; mr_r : Z }.

(** src/bigint.rs:128-133: one iteration of the loop of chinese_remainder
    (println! not modelled). *)
Definition crt_step (s : mod_result) (res_ : mod_result) : res mod_result :=
  let l := mr_l s in
  let r := mr_r s in
  '(_, p, _) <- extended_gcd l (mr_l res_) ;;
  let r := r + (mr_r res_ - r) * l * p in
  let l := l * mr_l res_ in
  Ok (mkMod l r).

(** src/bigint.rs:125-135  chinese_remainder: starts at l = 1, r = 1. *)
Definition chinese_remainder (v : list mod_result) : res mod_result :=
  foldM crt_step v (mkMod 1 1).
