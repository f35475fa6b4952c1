(** * Model of the NetCDF file of a run of the command line:
    /repo/ContactMechanics/CommandLineInterface/HardWall.py 186-193, 420-424,
    557-558, on top of NetCDF_Model.v

    Simplifications: the numbers [disp0], [load] and [area] are floats; the file
    of a run that ends with an exception is not closed (the netCDF4 package
    closes it when the program ends, which is not modelled). *)
From Coq Require Import Reals ZArith List Bool String.
From Verif Require Import Py HalfSpace_Model NetCDF_Model.
Import ListNotations.
Local Open Scope Z_scope.

(** The entries of a two-dimensional array in C order. *)
Definition entries_of (a : arr) : list R :=
  flat_map (fun i => map (a_val a i) (seq 0 (nth 1 (a_shape a) 0%nat))) (seq 0 (nth 0 (a_shape a) 0%nat)).
Definition as_value (a : arr) : value := PArr (a_shape a) (entries_of a).

Section Run.
  Variable ov : Z -> R.
  Variable subnormal : R -> R.

  (** One assignment after the other; an exception ends the sequence. *)
  Fixpoint assign (i : Z) (l : list (string * value)) (c : container) : container * res unit :=
    match l with
    | [] => (c, Ret tt)
    | (name, v) :: l' =>
        match set_frame ov subnormal i name v c with
        | (c1, Exc e) => (c1, Exc e)
        | (c1, Ret _) => assign i l' c1
        end
    end.

  (** [dump_nc], lines 186-193. *)
  Definition dump_nc (x : arr * arr * R * R * R) (c : container) : container * res unit :=
    let '(u, f, disp0, load, area) := x in
    match next_frame c with
    | (c1, Exc e) => (c1, Exc e)
    | (c1, Ret i) =>
        assign i [("displacements", as_value u); ("forces", as_value f); ("displacement", PReal disp0);
                  ("load", PReal load); ("area", PReal area)]%string c1
    end.
  Fixpoint dump_all (l : list (arr * arr * R * R * R)) (c : container) : container * res unit :=
    match l with
    | [] => (c, Ret tt)
    | x :: l' => match dump_nc x c with
                 | (c1, Exc e) => (c1, Exc e)
                 | (c1, Ret _) => dump_all l' c1
                 end
    end.

  (** Lines 423-424, then the calls of [dump_nc] of lines 470, 515 and 545. *)
  Definition fill_file (fn : string) (grid : list nat) (l : list (arr * arr * R * R * R)) (k : disk)
    : disk * res container :=
    match open_container fn 0 true Write k with
    | (k1, Exc e) => (k1, Exc e)
    | (k1, Ret c) =>
        match set_shape grid None c with
        | (_, Exc e) => (k1, Exc e)
        | (c1, Ret _) => match dump_all l c1 with
                         | (_, Exc e) => (k1, Exc e)
                         | (c2, Ret _) => (k1, Ret c2)
                         end
        end
    end.
  (** Line 558. *)
  Definition write_file (fn : string) (grid : list nat) (l : list (arr * arr * R * R * R)) (k : disk) : disk * res unit :=
    match fill_file fn grid l k with
    | (k1, Exc e) => (k1, Exc e)
    | (k1, Ret c) => (fst (close c k1), Ret tt)
    end.
End Run.
