(** PidFilter on complex signals with complex gains (pid_filter.py:66-89): the model of
    PidModel.v over the complex numbers, with numpy's magnitude of a complex number in
    line 85.  A limit is a real number: comparing a complex one raises TypeError in the
    setter (pid_filter.py:46). *)
From Coq Require Import List Reals.
From Coquelicot Require Import Complex.
From Verif Require Import Base Instances FirModel PidModel.

Definition CO : OArith :=
  {| oa := CA; oabs := fun z : C => RtoC (Cmod z); oltb := fun x y : C => Rltb (fst x) (fst y);
     oleb := fun x y : C => Rleb (fst x) (fst y); oltinf := fun _ => true |}.
