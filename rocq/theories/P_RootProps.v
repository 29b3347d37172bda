(** C99: counting roots modulo p by the gcd with x^p - x. *)
From Coq Require Import Znumtheory ZifyBool Setoid Morphisms Ring.
From Verif Require Import Prelude M_Bigint M_Variable M_Term M_Poly Spec P_Bigint P_Variable P_FSum P_Poly P_Rem P_PolyProps P_Subst P_Subst2 P_Subst3 P_Mod P_Gcd P_Gcd2 P_Roots.
Open Scope Z_scope.

(** C99: for f in x with leading coefficient prime to p, whenever gcd(f, x^p - x) (in either order) returns g: g is monic, its degree is the
    number of roots of f in GF(p), and the roots of g are those of f. *)
Lemma c99_count : forall fuel p f g u v, prime p -> p <= i32_max -> sorted f -> only_x f -> i32_poly f -> f <> [] -> ~ (p | tc (highest_term_x f)) ->
  let d := [(mkMono 1 0 0 None, -1); (mkMono p 0 0 None, 1)] in (u, v) = (f, d) \/ (u, v) = (d, f) -> p_gcd fuel u v p = Ok g ->
  tc (highest_term_x g) = 1 /\ mx (tm (highest_term_x g)) = Z.of_nat (length (filter (fun x => fval x 0 f mod p =? 0) (zrange 0 p))) /\
  forall x, (p | fval x 0 g) <-> (p | fval x 0 f).
Proof.
  intros fuel p f g u v Hp Bp Sf Of If Nf Uf d HD HG. pose proof (prime_ge_2 p Hp) as Hp2. change d with (fermat_poly p) in *. clear d.
  assert (Sd := fermat_sorted p Hp2). assert (Od := fermat_only_x p ltac:(lia)). assert (Id := fermat_i32 p ltac:(lia)). assert (Ud := fermat_ulead p Hp2). assert (Lf : ulead p f) by (right; exact Uf).
  assert (R : sorted g /\ reduced p g /\ only_x g /\ tc (highest_term_x g) = 1 /\ 1 <= mx (tm (highest_term_x g)) /\ fdivides p g f /\ fdivides p g (fermat_poly p) /\
     exists k l, only_x k /\ only_x l /\ feqm p g (fadd (conv k f) (conv l (fermat_poly p)))).
  { destruct HD as [HD|HD]; injection HD; intros; subst u v.
    - destruct (ugcd_spec p Hp fuel f (fermat_poly p) g Sf Sd Of Od If Id Lf Ud HG) as (A & B & C & D & E & _ & _ & F & G & k & l & Ok1 & Ol & H1). repeat (split; [assumption|]). exists k, l; auto.
    - destruct (ugcd_spec p Hp fuel (fermat_poly p) f g Sd Sf Od Of Id If Ud Lf HG) as (A & B & C & D & E & _ & _ & F & G & k & l & Ok1 & Ol & H1). repeat (split; [assumption|]).
      exists l, k. split; [exact Ol|]. split; [exact Ok1|]. rewrite H1. intros m. unfold fadd. rewrite !coef_app. exists 0. ring. }
  destruct R as (Sg & Rg & Og & Mg & Dg & Gf & Gd & k & l & Ok1 & Ol & F). assert (Ng : g <> []) by (intros ->; cbn in Dg; lia).
  assert (RT : forall x, (p | fval x 0 g) <-> (p | fval x 0 f)).
  { intros x. split; [apply divides_root; assumption|]. intros D. apply (fval_feqm p x 0) in F. unfold fadd in F. rewrite fval_app, !fval_conv_x in F by assumption.
    replace (fval x 0 g) with ((fval x 0 g - (fval x 0 k * fval x 0 f + fval x 0 l * fval x 0 (fermat_poly p))) + (fval x 0 k * fval x 0 f + fval x 0 l * fval x 0 (fermat_poly p))) by ring.
    apply Z.divide_add_r; [exact F|]. apply Z.divide_add_r; apply Z.divide_mul_r; [exact D|apply fermat_roots, Hp]. }
  split; [exact Mg|]. split; [|exact RT]. rewrite <- (roots_of_divisor p g Hp Sg Rg Og Ng Gd). unfold roots. f_equal. f_equal. apply filter_ext. intros x. unfold rootb.
  apply Bool.eq_iff_eq_true. rewrite !Z.eqb_eq, !Z.mod_divide by lia. apply RT.
Qed.
(** C99: it returns exactly when f has a root, and runs forever otherwise. *)
Lemma c99_returns : forall p f u v, prime p -> p <= i32_max -> sorted f -> only_x f -> i32_poly f -> f <> [] -> ~ (p | tc (highest_term_x f)) ->
  let d := [(mkMono 1 0 0 None, -1); (mkMono p 0 0 None, 1)] in (u, v) = (f, d) \/ (u, v) = (d, f) ->
  ((exists x, 0 <= x < p /\ (p | fval x 0 f)) <-> exists fuel g, p_gcd fuel u v p = Ok g) /\
  (~ (exists x, 0 <= x < p /\ (p | fval x 0 f)) -> forall fuel, p_gcd fuel u v p = NoFuel).
Proof.
  intros p f u v Hp Bp Sf Of If Nf Uf d HD. pose proof (prime_ge_2 p Hp) as Hp2.
  assert (Y : (exists fuel g, p_gcd fuel u v p = Ok g) -> exists x, 0 <= x < p /\ (p | fval x 0 f)).
  { intros (fuel & g & HG). destruct (c99_count fuel p f g u v Hp Bp Sf Of If Nf Uf HD HG) as (M & L & _).
    destruct (filter _ _) as [|x r] eqn:E in L.
    - exfalso. change d with (fermat_poly p) in *. assert (Sd := fermat_sorted p Hp2). assert (Od := fermat_only_x p ltac:(lia)). assert (Id := fermat_i32 p ltac:(lia)). assert (Ud := fermat_ulead p Hp2). assert (Lf : ulead p f) by (right; exact Uf).
      assert (1 <= mx (tm (highest_term_x g))) by (destruct HD as [HD|HD]; injection HD; intros; subst u v; [apply (ugcd_spec p Hp fuel f (fermat_poly p) g Sf Sd Of Od If Id Lf Ud HG)|apply (ugcd_spec p Hp fuel (fermat_poly p) f g Sd Sf Od Of Id If Ud Lf HG)]). cbn in L. lia.
    - assert (I : In x (x :: r)) by (left; reflexivity). rewrite <- E in I. apply filter_In in I as (I & J). apply P_Bigint.in_zrange in I. exists x. split; [exact I|]. apply Z.mod_divide; lia. }
  change d with (fermat_poly p) in *. assert (Sd := fermat_sorted p Hp2). assert (Od := fermat_only_x p ltac:(lia)). assert (Id := fermat_i32 p ltac:(lia)). assert (Ud := fermat_ulead p Hp2). assert (Lf : ulead p f) by (right; exact Uf).
  split.
  - split; [|exact Y]. intros RT. apply (common_factor_fermat p f Hp Of) in RT.
    destruct HD as [HD|HD]; injection HD; intros; subst u v; [apply (ugcd_returns p Hp (Z.to_nat (p + 1)))|apply (ugcd_returns p Hp (Z.to_nat (mx (tm (highest_term_x f)) + 1)))]; try assumption; try discriminate; auto using common_factor_sym.
    + rewrite fermat_highest by lia. cbn [tm mx]. lia.
    + destruct (highest_only_x f Sf Of) as (_ & _ & _ & P0). lia.
  - intros N fuel. destruct (p_gcd fuel u v p) as [g| |] eqn:E; [|exfalso|reflexivity].
    + exfalso. apply N, Y. eauto.
    + destruct HD as [HD|HD]; injection HD; intros; subst u v; eapply (ugcd_never_panics p Hp fuel); try exact E; assumption.
Qed.
Example c99_case : let f := [(mkMono 0 0 0 None, 1); (mkMono 2 0 0 None, 1)] in
  p_gcd 9 f [(mkMono 1 0 0 None, -1); (mkMono 5 0 0 None, 1)] 5 = Ok f /\ filter (fun x => fval x 0 f mod 5 =? 0) (zrange 0 5) = [2; 3] /\ prime 5.
Proof. split; [vm_compute; reflexivity|]. split; [reflexivity|]. apply is_prime_spec. reflexivity. Qed.
