(* What a time series of images is. *)
From Coq Require Import String.
From Verif Require Import Model.Base Model.Text Model.Layout Model.Types.
Local Open Scope string_scope.
Local Open Scope list_scope.
Local Open Scope Z_scope.

(* t is s without its last dot and what follows it; s itself if it has no dot *)
Definition without_extension (s t : list byte) : Prop :=
  (exists r, s = t ++ 46 :: r /\ ~ In 46 r) \/ (~ In 46 s /\ t = s).
Definition image_name (name vti : list byte) : Prop := exists t, without_extension name t /\ vti = t ++ bytes ".vti".

(* the ways to draw a vector or a sparse cell, and how they are asked for *)
Inductive drawing := Plain | Mag | Max | Field (n : Z).
Definition drawing_words (m : drawing) : list (list byte) :=
  match m with Plain => [] | Mag => [bytes "--mag"] | Max => [bytes "--max"] | Field n => [bytes "--field=" ++ show_int n] end.
Definition drawing_mode (m : drawing) : Z := match m with Plain => 0 | Mag => 1 | Max => 2 | Field _ => 3 end.
Definition drawing_field (m : drawing) : Z := match m with Field n => n | _ => 0 end.
Definition drawing_ok (m : drawing) : Prop := match m with Field n => 0 <= n < 2 ^ 31 | _ => True end.

(* an argument that is not an option *)
Definition plain_word (w : list byte) : Prop := ~ exists t, w = bytes "--" ++ t.

(* the words that name the index: an option, or a name without '=' that is not a file *)
Definition index_words (missing : list byte -> Prop) (o pvd : list byte) : Prop :=
  o = bytes "--output=" ++ pvd \/
  (plain_word o /\ missing o /\ ~ In 61 o /\ exists t, without_extension o t /\ pvd = t ++ bytes ".pvd").
