(** Polynomial eigenproblems: what the user means. Textbook definitions, independent of the code. *)
From mathcomp Require Import all_ssreflect all_algebra.
From Verif Require Import Prelude STModel STSpec PEPModel.
Set Implicit Arguments. Unset Strict Implicit. Unset Printing Implicit Defensive.
Import GRing.Theory Num.Theory.
Local Open Scope ring_scope.

Section Bases.
Variable F : fieldType.

(** Physicists' Hermite polynomials: H_0=1, H_{k+1} = 2xH_k - H_k'. *)
Fixpoint hermite (k : nat) : {poly F} :=
  if k is k'.+1 then 2%:R *: ('X * hermite k') - (hermite k')^`() else 1.
(** Probabilists' Hermite polynomials: He_0=1, He_{k+1} = xHe_k - He_k'. *)
Fixpoint hermite_prob (k : nat) : {poly F} :=
  if k is k'.+1 then 'X * hermite_prob k' - (hermite_prob k')^`() else 1.

(** The polynomial of degree k of each basis:
    monomials; Chebyshev, by T_k(x)+U_{k-1}(x)sqrt(x^2-1) = (x+sqrt(x^2-1))^k; Legendre, by Rodrigues' formula;
    Laguerre, by the closed formula; Hermite. *)
Definition bpoly (b : basis) (k : nat) : {poly F} :=
  match b with
  | Monomial => 'X^k
  | Chebyshev1 => \sum_(i < k.+1) ('C(k, i.*2))%:R *: ('X^(k - i.*2) * ('X^2 - 1) ^+ i)
  | Chebyshev2 => \sum_(i < k.+1) ('C(k.+1, i.*2.+1))%:R *: ('X^(k - i.*2) * ('X^2 - 1) ^+ i)
  | Legendre => ((2 ^ k * k`!)%:R)^-1 *: (('X^2 - 1) ^+ k)^`(k)
  | Laguerre => \sum_(i < k.+1) ((-1) ^+ i * ('C(k, i))%:R / (i`!)%:R) *: 'X^i
  | Hermite => hermite k
  end.

(** The bases for which the code uses the polynomials of that name. *)
Definition faithful (b : basis) : bool :=
  match b with Monomial | Chebyshev1 | Chebyshev2 => true | _ => false end.

(** P(z) = sum_i phi_i(z) A_i and its eigenpairs. *)
Definition mpoly n (b : basis) (A : seq 'M[F]_n) (z : F) : 'M[F]_n :=
  \sum_(i < size A) (bpoly b i).[z] *: nth 0 A i.
Definition eigenpair n (b : basis) (A : seq 'M[F]_n) (z : F) (x : 'cV[F]_n) : Prop :=
  x != 0 /\ mpoly b A z *m x = 0.

(** The quadratic polynomial K + zC + z^2M. *)
Definition quad n (K C M : 'M[F]_n) (z : F) : 'M[F]_n := K + z *: C + z ^+ 2 *: M.
End Bases.

(** ** What PEPLINEAR is expected to solve *)
Section Supported.
Variable F : numFieldType.
Variable n : nat.

(** The options for which the implicit linearization is right; the others are counterexamples or not supported. [ts]
    are the matrices of the transformed polynomial, used with STSetTransform. *)
Record supported (c : config F n) (ts : seq 'M[F]_n) : Prop := Supported {
  s_size : (2 < size (c_mats c))%N;
  s_basis : faithful (c_basis c);
  s_scale : c_scale c != 0;
  s_type : c_type c <> Cayley;
  s_implicit : [/\ c_explicit c = false, c_ptype c = General, c_alpha c = 1 & c_beta c = 0];
  s_transform : c_transform c -> [/\ c_basis c = Monomial, size ts = size (c_mats c) &
    transformed (c_type c) (c_shift c) (c_mats c) ts];
  s_sinvert : c_type c = Sinvert -> ~~ c_transform c -> [/\ c_shift c = c_target c, c_user c = None &
    c_basis c = Monomial \/ size (c_mats c) = 3%N];
  s_extract : c_extract c <> XStructured /\ (c_extract c = XNorm -> c_transform c -> c_type c = Sinvert) }.

(** The matrix of the linear systems: the leading matrix, or the polynomial at the target. *)
Definition solve_matrix (c : config F n) (ts : seq 'M[F]_n) : 'M[F]_n :=
  if c_transform c then nth 0 ts (size (c_mats c)).-1
  else match c_type c with
    | Sinvert => mpoly (c_basis c) (c_mats c) (c_target c)
    | _ => nth 0 (c_mats c) (size (c_mats c)).-1
    end.

(** The options for which the explicit linearization of a quadratic problem is right: the pencil is regular enough,
    and for gyroscopic problems the eigenvalue zero is excluded. [ds] is the scaling factor of the matrices. *)
Definition regular (t : ptype) (a b s ds : F) (K C M : 'M[F]_n) : bool :=
  match t with
  | General => (a ^+ 2 - b ^+ 2)%:M + (a * b * (ds * s)) *: C \in unitmx
  | Hermitian | Hyperbolic => a ^+ 2 *: K - (a * b * s) *: C + (b ^+ 2 * s ^+ 2) *: M \in unitmx
  | Gyroscopic => a ^+ 2 *: K + (a * b * s) *: C + (b ^+ 2 * s ^+ 2) *: M \in unitmx
  end.
Record explicit_supported (c : config F n) (ds : F) (K C M : 'M[F]_n) : Prop := ExplicitSupported {
  e_mats : c_mats c = [:: K; C; M];
  e_basis : c_basis c = Monomial;
  e_scale : c_scale c != 0;
  e_dscale : ds != 0;
  e_type : c_type c <> Cayley;
  e_explicit : c_explicit c;
  e_linear : (c_alpha c != 0) || (c_beta c != 0);
  e_transform : c_transform c = false;
  e_extract : c_extract c <> XStructured }.
End Supported.
