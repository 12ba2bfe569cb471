(** Models of /repo/diamondback/filters/integral_filter.py and derivative_filter.py. *)
From Coq Require Import List ZArith Bool.
From Verif Require Import Base FirModel IirModel.
Import ListNotations.
Set Asymmetric Patterns.

(** The literal of a whole number. *)
Fixpoint of_pos {A : Arith} (p : positive) : A :=
  match p with
  | xH => one
  | xO p' => add (of_pos p') (of_pos p')
  | xI p' => add one (add (of_pos p') (of_pos p'))
  end.
Definition of_Z {A : Arith} (z : Z) : A :=
  match z with Z0 => zero | Zpos p => of_pos p | Zneg p => opp (of_pos p) end.

(** [numpy.array(ns) * (1.0 / d)] *)
Definition table_row {A : Arith} (ns : list Z) (d : Z) : list A :=
  map (fun n => mul (of_Z n) (div one (of_Z d))) ns.

(** integral_filter.py:81-87, IntegralFilter.B (keys and rows). *)
Definition integral_B {A : Arith} (order : Z) : option (list A) :=
  match order with
  | 0 => Some (table_row [1] 1)
  | 1 => Some (table_row [1; 1] 2)
  | 2 => Some (table_row [1; 4; 1] 6)
  | 3 => Some (table_row [1; 3; 3; 1] 8)
  | 4 => Some (table_row [7; 32; 12; 32; 7] 90)
  | _ => None
  end%Z.

(** integral_filter.py:89-99, __init__.  filter (101-113) is inherited. *)
Definition integral_make {A : Arith} (order : Z) : res (iir A) :=
  match integral_B order with
  | None => Err ValueError
  | Some b => iir_make (mkArr DFloat [zero; one]) (mkArr DFloat b) (mkArr DFloat [])
  end.

(** derivative_filter.py:103-120, DerivativeFilter.B. *)
Definition derivative_B {A : Arith} (derivative order : Z) : option (option (list A)) :=
  match derivative with
  | 1 => Some match order with
         | 1 => Some (table_row [1; -1] 1)
         | 2 => Some (table_row [1; 0; -1] 2)
         | 4 => Some (table_row [-1; 8; 0; -8; 1] 12)
         | _ => None end
  | 2 => Some match order with
         | 2 => Some (table_row [1; -2; 1] 1)
         | 4 => Some (table_row [1; 0; -2; 0; 1] 4)
         | 6 => Some (table_row [-1; 8; 1; -16; 1; 8; -1] 24)
         | 8 => Some (table_row [1; -16; 64; 16; -130; 16; 64; -16; 1] 144)
         | _ => None end
  | 3 => Some match order with
         | 4 => Some (table_row [1; -2; 0; 2; -1] 2)
         | 6 => Some (table_row [1; 0; -3; 0; 3; 0; -1] 8)
         | 8 => Some (table_row [-1; 8; 2; -24; 0; 24; -2; -8; 1] 48)
         | _ => None end
  | _ => None
  end%Z.

(** derivative_filter.py:122-134, __init__.  filter (136-148) is inherited. *)
Definition derivative_make {A : Arith} (derivative order : Z) : res (fir A) :=
  match derivative_B derivative order with
  | None => Err ValueError
  | Some None => Err ValueError
  | Some (Some b) => fir_make (mkArr DFloat b) (mkArr DFloat [])
  end.
