(** Model of the norm checks in hqca/acse/_class_A_acse.py l.108-125 and hqca/acse/_quant_A_acse.py l.52-68.

    Square roots are not computed: [s] and [n] stand for np.sqrt(norm) and np.linalg.norm(A); the theorems require
    their squares to be the sums of squares below.  The array is real (np.real, np.imag) and given as a list. *)
From Coq Require Import Bool List Arith QArith Qabs.
From Verif Require Import AcseModel.
Import ListNotations.
Local Open Scope Q_scope.
(** [abs(term)>=S_min]. *)
Definition kept (S_min : Q) (ts : list Q) : list Q := filter (fun x => Qle_bool S_min (Qabs x)) ts.
(** The accumulated [norm]. *)
Definition sumsq (ts : list Q) : Q := fold_right (fun x s => x * x + s) 0 ts.
(** _class_A_acse.py l.123: [assert (np.sqrt(norm)-np.linalg.norm(A))<1e-8]. *)
Definition class_check (s n : Q) : bool := Qltb (s - n) (1 # 100000000).
(** _quant_A_acse.py l.67: [assert abs(np.sqrt(norm)-np.linalg.norm(rdm))<1e-8]. *)
Definition quant_check (s n : Q) : bool := Qltb (Qabs (s - n)) (1 # 100000000).
