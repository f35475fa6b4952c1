(** * Floating point arithmetic: numbers and rounding

    What the operations of an arithmetic do with the real numbers that its values
    stand for.  [Float_Double.v] proves it for the 64 bit format with
    [u = 2^-53] and [eta = 2^-1075]. *)
From Coq Require Import Reals List Bool Arith.
From Verif Require Import Float_Model Float_Spec.
Import ListNotations.
Local Open Scope R_scope.

Section Rounding.
  Context {F : Type}.
  Variable K : Arith F.
  Variable fin : F -> Prop.
  Variable val : F -> R.

  (** [y] is [x] up to the relative error [u] and the absolute error [e]. *)
  Definition close (u e y x : R) : Prop := Rabs (y - x) <= u * Rabs x + e.

  Record rounding (u eta : R) : Prop := mkRounding {
    v_unit : 0 <= u <= / 4;
    v_eta : 0 <= eta;
    v_zero : val (a0 K) = 0;
    v_opp : forall x, val (aopp K x) = - val x;
    v_abs : forall x, val (aabs K x) = Rabs (val x);
    v_abs_fin : forall x, fin x -> fin (aabs K x);
    (* comparisons of finite numbers are those of the real numbers *)
    v_lt : forall x y, fin x -> fin y -> (alt K x y = true <-> val x < val y);
    v_le : forall x y, fin x -> fin y -> (ale K x y = true <-> val x <= val y);
    v_eq : forall x y, fin x -> fin y -> (aeq K x y = true <-> val x = val y);
    (* rounding *)
    v_add : forall x y, fin (aadd K x y) -> close u 0 (val (aadd K x y)) (val x + val y);
    v_add_zero : forall x y, fin (aadd K x y) -> val x = 0 \/ val y = 0 ->
      val (aadd K x y) = val x + val y;
    v_sub : forall x y, fin (asub K x y) -> close u 0 (val (asub K x y)) (val x - val y);
    v_mul : forall x y, fin (amul K x y) -> close u eta (val (amul K x y)) (val x * val y);
    v_div : forall x y, fin y -> fin (adiv K x y) -> close u eta (val (adiv K x y)) (val x / val y);
    v_sqrt : forall x, fin (asqrt K x) -> close u 0 (val (asqrt K x)) (sqrt (val x));
    v_nat : forall n, fin (anat K n) -> close u 0 (val (anat K n)) (INR n);
    (* overflow and division by zero are not finite *)
    v_div_fin : forall x y, fin y -> fin (adiv K x y) -> fin x /\ val y <> 0;
    v_sqrt_fin : forall x, fin (asqrt K x) -> fin x /\ 0 <= val x;
    v_sqrt_sign : forall x, not_neg K (asqrt K x);
    v_below : forall x y, alt K x y = true -> fin y -> not_neg K x -> fin x;
    v_eq_fin : forall x y, aeq K x y = true -> fin y -> fin x;
    v_square : forall x, fin (amul K x x) -> 0 <= val (amul K x x) }.
End Rounding.

(** ** Vocabulary of the statements *)
Section RealWords.
  Context {F P : Type}.
  Variable val : F -> R.
  Variables u eta : R.
  Variable c : fcfg (F:=F) (P:=P).
  Variable o : foutcome (F:=F) (P:=P).

  Definition total (f : P -> R) : R := fold_right Rplus 0 (map f (k_pts c)).
  (** The returned pressures and the gaps they leave, as real numbers. *)
  Definition press (p : P) : R := val (o_jac o p).
  Definition gap (p : P) : R := val (o_x o p) - val (k_h c p) - val (o_offset o).
  Definition tol : R := val (k_pentol c).
  (** Number of points in contact. *)
  Definition area : R := INR (length (filter (o_active o) (k_pts c))).
  (** Allowed penetration: the tolerance and the rounding of the gap. *)
  Definition lower (p : P) : R :=
    (1 + 4 * u) * tol + u * (Rabs (val (o_x o p)) + Rabs (val (k_h c p)) + Rabs (val (o_offset o))).
  (** Allowed gap in contact: the root mean square of the gaps in contact is
      below the tolerance, hence each of them below the tolerance times the root
      of the area. *)
  Definition upper (p : P) : R :=
    (1 + 2 * u) * sqrt ((1 + u) / (1 - u) ^ (length (k_pts c) + 4) * (area * tol ^ 2 + (area + 1) * eta))
    + (1 + 4 * u) * tol + u * (Rabs (val (o_x o p)) + Rabs (val (k_h c p))).
  (** Rounding of a product of a matrix and the forces. *)
  Definition spill (mat : P -> P -> F) (p : P) : R :=
    ((1 + u) ^ (length (k_pts c) + 1) - 1) * total (fun q => Rabs (val (mat p q)) * Rabs (press q))
    + (1 + u) ^ length (k_pts c) * INR (length (k_pts c)) * eta.

  (** The contact problem for real numbers: pressures [ps] on a substrate with the
      response [- val mat], pressed against the heights at the offset. *)
  Definition response (mat : P -> P -> F) (ps : P -> R) (p : P) : R :=
    total (fun q => - val (mat p q) * ps q).
  Definition exact (mat : P -> P -> F) (ps : P -> R) : Prop := forall p, In p (k_pts c) ->
    (surface c p -> 0 <= ps p
       /\ 0 <= response mat ps p - val (k_h c p) - val (o_offset o)
       /\ ps p * (response mat ps p - val (k_h c p) - val (o_offset o)) = 0)
    /\ (~ surface c p -> ps p = 0).
End RealWords.
