(* Words for C117. *)
From Coq Require Import String.
From Verif Require Import Model.Base Model.Text Model.Types Model.Tools Spec.Options.
Local Open Scope list_scope.
Local Open Scope Z_scope.

(* afterwards all files but one are as before *)
Definition only_writes (out : list byte) (d d' : disk) : Prop := forall m, m <> out -> d' m = d m.
(* a name that is not taken for an option *)
Definition not_option (a : list byte) : Prop := a <> bytes "--help" /\ a <> bytes "--".
(* what follows the two names on the command line of wrongendian, and the number of threads it asks for *)
Definition threads_asked (rest : list (list byte)) (n : Z) : Prop := rest = [] /\ n = 2 \/ natural n /\ rest = [show_int n].
