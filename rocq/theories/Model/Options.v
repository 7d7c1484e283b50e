(* The command lines of the image and point cloud programs: utility/mmsp2png.cpp:17-221 and utility/mmsp2xyz.cpp:28-137,187-197.
   Arguments are texts without the byte 0.  atof is any function to the numbers (it returns 0 for a text that is no number); values that are
   not numbers or infinite are left out.  A std::set is the increasing list of its elements.  An uncaught exception and a failed assertion
   end the program with 134; std::exit(-1) is Exit (-1). *)
From Coq Require Import String QArith.QArith QArith.Qcanon.
From Verif Require Import Model.Base Model.Text Model.Num Model.Ghostswap Model.File Model.Driver Model.Types Model.Stencil Model.Evolve Model.Image Model.Table.
Local Open Scope list_scope.
Local Open Scope Z_scope.

Record settings := mkSet {
  o_dat : Z; o_out : Z;                  (* datindex; pngindex or xyzindex *)
  o_mode : Z; o_invert : bool; o_coninv : bool; o_normal : bool; o_contol : Qc;
  o_axis : Z; o_level : Z; o_zoom : Qc * Qc; o_lvlfield : Z; o_fields : list Z; o_levels : list Qc
}.
Definition with_dat s v := mkSet v (o_out s) (o_mode s) (o_invert s) (o_coninv s) (o_normal s) (o_contol s) (o_axis s) (o_level s) (o_zoom s) (o_lvlfield s) (o_fields s) (o_levels s).
Definition with_out s v := mkSet (o_dat s) v (o_mode s) (o_invert s) (o_coninv s) (o_normal s) (o_contol s) (o_axis s) (o_level s) (o_zoom s) (o_lvlfield s) (o_fields s) (o_levels s).
Definition with_mode s v := mkSet (o_dat s) (o_out s) v (o_invert s) (o_coninv s) (o_normal s) (o_contol s) (o_axis s) (o_level s) (o_zoom s) (o_lvlfield s) (o_fields s) (o_levels s).
Definition with_invert s v := mkSet (o_dat s) (o_out s) (o_mode s) v (o_coninv s) (o_normal s) (o_contol s) (o_axis s) (o_level s) (o_zoom s) (o_lvlfield s) (o_fields s) (o_levels s).
Definition with_coninv s v := mkSet (o_dat s) (o_out s) (o_mode s) (o_invert s) v (o_normal s) (o_contol s) (o_axis s) (o_level s) (o_zoom s) (o_lvlfield s) (o_fields s) (o_levels s).
Definition with_normal s v := mkSet (o_dat s) (o_out s) (o_mode s) (o_invert s) (o_coninv s) v (o_contol s) (o_axis s) (o_level s) (o_zoom s) (o_lvlfield s) (o_fields s) (o_levels s).
Definition with_contol s v := mkSet (o_dat s) (o_out s) (o_mode s) (o_invert s) (o_coninv s) (o_normal s) v (o_axis s) (o_level s) (o_zoom s) (o_lvlfield s) (o_fields s) (o_levels s).
Definition with_axis s v := mkSet (o_dat s) (o_out s) (o_mode s) (o_invert s) (o_coninv s) (o_normal s) (o_contol s) v (o_level s) (o_zoom s) (o_lvlfield s) (o_fields s) (o_levels s).
Definition with_level s v := mkSet (o_dat s) (o_out s) (o_mode s) (o_invert s) (o_coninv s) (o_normal s) (o_contol s) (o_axis s) v (o_zoom s) (o_lvlfield s) (o_fields s) (o_levels s).
Definition with_zoom s v := mkSet (o_dat s) (o_out s) (o_mode s) (o_invert s) (o_coninv s) (o_normal s) (o_contol s) (o_axis s) (o_level s) v (o_lvlfield s) (o_fields s) (o_levels s).
Definition with_lvlfield s v := mkSet (o_dat s) (o_out s) (o_mode s) (o_invert s) (o_coninv s) (o_normal s) (o_contol s) (o_axis s) (o_level s) (o_zoom s) v (o_fields s) (o_levels s).
Definition with_fields s v := mkSet (o_dat s) (o_out s) (o_mode s) (o_invert s) (o_coninv s) (o_normal s) (o_contol s) (o_axis s) (o_level s) (o_zoom s) (o_lvlfield s) v (o_levels s).
Definition with_levels s v := mkSet (o_dat s) (o_out s) (o_mode s) (o_invert s) (o_coninv s) (o_normal s) (o_contol s) (o_axis s) (o_level s) (o_zoom s) (o_lvlfield s) (o_fields s) v.

(* mmsp2png.cpp:66-77, mmsp2xyz.cpp:50-57 *)
Definition defaults : settings := mkSet 0 0 0 false false false (Q2Qc (6 # 100)) (-1) (-1) (0%Qc, 1%Qc) (-1) [] [].
(* std::sqrt(std::numeric_limits<double>::max()), mmsp2png.cpp:88 *)
Definition zoom_limit : Qc := int2q ((2 ^ 53 - 1) * 2 ^ 459).

Fixpoint insert_int (k : Z) (l : list Z) : list Z :=
  match l with [] => [k] | x :: t => if k <? x then k :: l else if x <? k then x :: insert_int k t else l end.
Fixpoint insert_num (k : Qc) (l : list Qc) : list Qc :=
  match l with [] => [k] | x :: t => if qgt x k then k :: l else if qgt k x then x :: insert_num k t else l end.

(* the tokens that strtok(s, ","), strtok(NULL, ","), ... return before NULL; every token is at least one byte of s *)
Fixpoint tokens_upto (fuel : nat) (s : list byte) : list (list byte) :=
  match fuel with O => [] | S f => match token s with None => [] | Some (t, r) => t :: tokens_upto f r end end.
Definition tokens (s : list byte) : list (list byte) := tokens_upto (S (length s)) s.
(* flag.substr(pos, n), pos <= flag.length() *)
Definition part (flag : list byte) (pos n : nat) : list byte := firstn n (skipn pos flag).
(* flag[k], k <= flag.length() *)
Definition at_ (flag : list byte) (k : nat) : byte := nth k flag 0.

Section Options.
Context (atof : list byte -> Qc).
Definition eq_sign : byte := 61.

(* while (ptr != NULL) { fieldset.insert(atoi(ptr)); ... }, mmsp2png.cpp:176-179 *)
Definition insert_fields (ts : list (list byte)) (l : list Z) : option (list Z) := fold_opt (fun l t => do k <- atoi t; Some (insert_int k l)) ts l.

(* the branches shared by the two programs: --contol, --contour, --field, --exclude, the names; mmsp2png.cpp:135-201, mmsp2xyz.cpp:66-127.
   ext: ".png" or ".xyz" *)
Definition common_flag (ext : list byte) (i : Z) (flag : list byte) (s : settings) : outcome settings :=
  if Types.starts (bytes "--contol") flag then
    got t <- contol_text flag; Done (with_contol s (atof t))
  else if Types.starts (bytes "--contour") flag then
    if (zlen flag =? 9) || negb (at_ flag 9 =? eq_sign) then Exit (-1) else
    match tokens (part flag 10 255) with
    | [] => Undef                                  (* atoi(NULL) *)
    | t :: ts => got n <- req (atoi t);
                 let s := with_lvlfield (with_levels s (fold_left (fun l t => insert_num (atof t) l) ts (o_levels s))) n in
                 if n =? -1 then Exit (-1) else Done s
    end
  else if Types.starts (bytes "--field") flag then
    if negb (at_ flag 7 =? eq_sign) then Exit (-1) else
    got l <- req (insert_fields (tokens (part flag 8 255)) (o_fields s)); Done (with_fields (with_mode s (Z.max 2 (o_mode s))) l)
  else if Types.starts (bytes "--exclude") flag then
    if (zlen flag =? 9) || negb (at_ flag 9 =? eq_sign) then Exit (-1) else
    got l <- req (insert_fields (tokens (part flag 10 255)) (o_fields s)); Done (with_fields (with_mode s (Z.max 3 (o_mode s))) l)
  else if finds ext flag then Done (with_out s i)
  else Done (with_dat s i).

(* mmsp2png.cpp:112-125; the variable keeps the axis of an earlier flag *)
Definition slice_axis (c : byte) (old : Z) : Z :=
  if (c =? 120) || (c =? 88) then 0 else if (c =? 121) || (c =? 89) then 1 else if (c =? 122) || (c =? 90) then 2 else old.

(* mmsp2png.cpp:80-202: argument number i *)
Definition png_flag (i : Z) (flag : list byte) (s : settings) : outcome settings :=
  if list_eq_dec Z.eq_dec flag (bytes "--mag") then Done (with_mode s (Z.max 1 (o_mode s)))
  else if list_eq_dec Z.eq_dec flag (bytes "--invert") then Done (with_invert s true)
  else if Types.starts (bytes "--zoom") flag then
    if (zlen flag =? 6) || negb (at_ flag 6 =? eq_sign) then Done (with_zoom s (zoom_limit, (- zoom_limit)%Qc)) else
    match tokens (part flag 7 255) with
    | a :: b :: rest => match rest with [] => Done (with_zoom s (atof a, atof b)) | _ => Exit 134 end
    | _ => Undef                                   (* atof(NULL) *)
    end
  else if Types.starts (bytes "--slice") flag then
    if (zlen flag =? 7) || negb (at_ flag 7 =? eq_sign) then Exit (-1) else
    let s := with_axis s (slice_axis (at_ flag 8) (o_axis s)) in
    if o_axis s =? -1 then Exit (-1) else
    if 10 <? zlen flag then got n <- req (atoi (part flag 10 20)); Done (with_level s n) else Done s
  else if Types.starts (bytes "--coninv") flag then Done (with_coninv s true)
  else common_flag (bytes ".png") i flag s.

(* mmsp2xyz.cpp:60-129 *)
Definition xyz_flag (i : Z) (flag : list byte) (s : settings) : outcome settings :=
  if list_eq_dec Z.eq_dec flag (bytes "--mag") then Done (with_mode s (Z.max 1 (o_mode s)))
  else if list_eq_dec Z.eq_dec flag (bytes "--normal") then Done (with_normal s true)
  else common_flag (bytes ".xyz") i flag s.

Fixpoint each_flag (flag : Z -> list byte -> settings -> outcome settings) (i : Z) (args : list (list byte)) (s : settings) : outcome settings :=
  match args with [] => Done s | a :: t => got s <- flag i a s; each_flag flag (i + 1) t s end.
(* args: argv[1], argv[2], ...; up to "no input specified", mmsp2png.cpp:19-209, mmsp2xyz.cpp:30-135 *)
Definition options (flag : Z -> list byte -> settings -> outcome settings) (args : list (list byte)) : outcome settings :=
  match args with
  | [] => Exit (-1)
  | a :: _ => if list_eq_dec Z.eq_dec a (bytes "--help") then Exit 0 else
              got s <- each_flag flag 1 args defaults;
              if o_dat s =? 0 then Exit (-1) else Done s
  end.
Definition png_options := options png_flag.
Definition xyz_options := options xyz_flag.
End Options.

(* the name of the output file, mmsp2png.cpp:216-226, mmsp2xyz.cpp:188-197.  Without a dot extpos is npos converted to int, which is
   converted back by find_first_of and substr *)
Definition output_name (ext : list byte) (args : list (list byte)) (s : settings) : option (list byte) :=
  if o_out s =? 0 then
    do dat <- get args (o_dat s - 1);
    Some match last_dot dat with
         | None => dat ++ ext
         | Some p => if existsb is_digit (skipn (Z.to_nat p) dat) then dat ++ ext else firstn (Z.to_nat p) dat ++ ext
         end
  else get args (o_out s - 1).
