(* The main program shared by the examples: include/MMSP.main.hpp:38-354. *)
From Coq Require Import String.
From Verif Require Import Model.Base Model.Text Model.Ghostswap.
Local Open Scope list_scope.

(* s.find_first_not_of("0123456789") == npos *)
Definition only_digits (s : list byte) : bool := forallb is_digit s.
(* s.find_first_of("."), s.find_last_of("."); None is npos *)
Fixpoint first_dot (s : list byte) : option Z :=
  match s with [] => None | b :: t => if b =? 46 then Some 0 else do k <- first_dot t; Some (k + 1) end.
Fixpoint last_dot (s : list byte) : option Z :=
  match s with
  | [] => None
  | b :: t => match last_dot t with Some k => Some (k + 1) | None => if b =? 46 then Some 0 else None end
  end.
(* s.substr(pos, n), pos not beyond the end *)
Definition substr (s : list byte) (pos n : Z) : list byte := firstn (Z.to_nat n) (skipn (Z.to_nat pos) s).

(* atoi; a value that does not fit in int is undefined behaviour *)
Definition atoi (s : list byte) : option Z :=
  let s := skip_space s in
  let '(neg, s) := match s with
                   | b :: t => if b =? 45 then (true, t) else if b =? 43 then (false, t) else (false, s)
                   | [] => (false, s)
                   end in
  let v := digits_val (fst (span is_digit s)) in
  let v := if neg then - v else v in
  if (- 2147483648 <=? v) && (v <=? int_max) then Some v else None.

Inductive command :=
| Undefined                       (* undefined behaviour *)
| Usage                           (* an error message, then Abort *)
| Help
| Example_grid (dim : Z) (filename : list byte)
| Simulate (infile outfile : list byte) (steps increment : Z).

(* :153-173 and :190-211: the number of steps [a] and the optional increment [rest] *)
Definition parse_steps (infile outfile a : list byte) (rest : list (list byte)) : command :=
  if negb (only_digits a) then Usage else
  match atoi a with
  | None => Undefined
  | Some steps =>
      match rest with
      | [] => Simulate infile outfile steps steps
      | b :: _ =>
          if negb (only_digits b) then Usage else
          match atoi b with
          | None => Undefined
          | Some increment => if steps <? increment then Usage else Simulate infile outfile steps increment
          end
      end
  end.

(* :41-212; args: argv[1], argv[2], ...  (argc = 1 + length args) *)
Definition parse_command (args : list (list byte)) : command :=
  match args with
  | [] => Usage
  | a1 :: rest =>
      if list_eq_dec Z.eq_dec a1 (bytes "--help") then Help else
      if list_eq_dec Z.eq_dec a1 (bytes "--example") then
        match rest with
        | [a2] | [a2; _] =>
            if negb (only_digits a2) then Usage else
            match atoi a2 with
            | None => Undefined
            | Some dim => Example_grid dim (match rest with [_; f] => f | _ => bytes "example" end)
            end
        | _ => Usage
        end
      else
        match rest with
        | [] => Usage
        | a2 :: rest' =>
            if 4 <? zlen args then Usage else
            if only_digits a2 then parse_steps a1 a1 a2 rest'
            else match rest' with
                 | [] => Undefined   (* :182: std::string(argv[3]) with argv[3] == NULL *)
                 | a3 :: rest'' => parse_steps a1 a2 a3 rest''
                 end
        end
  end.

(* :238-242 *)
Definition iterations_start (outfile : list byte) : option Z :=
  match first_dot outfile, last_dot outfile with
  | Some f, Some l => if f =? l then Some 0 else atoi (substr outfile (f + 1) (l - 1))
  | _, _ => Some 0
  end.

(* :243-257 *)
Definition out_base (outfile : list byte) : list byte :=
  match first_dot outfile, last_dot outfile with
  | Some f, Some l =>
      match first_dot (skipn (Z.to_nat (f + 1)) outfile) with
      | None => substr outfile 0 l ++ [46]
      | Some _ =>
          match last_dot (firstn (Z.to_nat l) outfile) with   (* outfile.rfind('.', last_dot - 1) *)
          | Some p =>
              let number := substr outfile (p + 1) (l - p - 1) in
              if forallb is_digit number then substr outfile 0 p ++ [46] else substr outfile 0 l ++ [46]
          | None => outfile   (* there are two dots *)
          end
      end
  | _, _ => outfile ++ [46]
  end.

(* :259-262 *)
Definition out_suffix (outfile : list byte) : list byte :=
  match last_dot outfile with Some l => skipn (Z.to_nat l) outfile | None => [] end.

(* :264-270 *)
Definition out_length (outfile : list byte) (steps : Z) : Z :=
  zlen (out_base outfile) + zlen (out_suffix outfile) + zlen (show_int steps).

(* :281-290: the loop over j; cur is the contents of outstr, n its length.  The fuel is never exhausted. *)
Fixpoint pad_loop (fuel : nat) (base suffix : list byte) (len step : Z) (j : nat) (cur : list byte) : option (list byte) :=
  if zlen cur <? len then
    match fuel with
    | O => None
    | S f => pad_loop f base suffix len step (S j) (base ++ repeat 48 j ++ show_int step ++ suffix)
    end
  else Some cur.

(* :281-294; FILENAME_MAX is 4096 on Linux: a longer name overflows the array or has no terminator *)
Definition file_name (base suffix : list byte) (len step : Z) : option (list byte) :=
  do s <- pad_loop (S (Z.to_nat len)) base suffix len step 0 [];
  if 4096 <=? zlen s then None else Some s.

Inductive run_result (A : Type) :=
| Ended (files : A)
| Crashed             (* undefined behaviour *)
| Running.            (* not ended within the given number of iterations *)
Arguments Ended {A}. Arguments Crashed {A}. Arguments Running {A}.

Section Run.
Context {G : Type} (update : G -> Z -> G).   (* MMSP::update(grid, steps), supplied by the application *)

(* :277-298 (the same for every dimension, :303-324, :329-349): grid g before step i, files written so far *)
Fixpoint run_loop (fuel : nat) (steps increment : Z) (base suffix : list byte) (len i : Z) (g : G) (files : list (list byte * G))
    : run_result (list (list byte * G)) :=
  if i <? steps then
    match fuel with
    | O => Running
    | S f =>
        let g := update g increment in
        if int_max <? i + increment then Crashed else
        match file_name base suffix len (i + increment) with
        | None => Crashed
        | Some name => run_loop f steps increment base suffix len (i + increment) g (files ++ [(name, g)])
        end
    end
  else Ended files.

(* :237-350, the grid read from the input file being g *)
Definition simulate (fuel : nat) (outfile : list byte) (steps increment : Z) (g : G) : run_result (list (list byte * G)) :=
  match iterations_start outfile with
  | None => Crashed
  | Some i => run_loop fuel steps increment (out_base outfile) (out_suffix outfile) (out_length outfile steps) i g []
  end.
End Run.
