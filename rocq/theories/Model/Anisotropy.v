(* Energies and mobilities of grain boundaries, anisotropy.hpp; the six copies in examples/ are the same file.  A table
   std::map<int,std::map<int,float> > is modelled by a list of entries; table[a][b] makes an entry 0 where there is none.  The file leaves
   open how an energy or a mobility is computed ("compute energy here...", = 1.0): compute is any function of the two numbers. *)
From Coq Require Import QArith.QArith QArith.Qcanon.
From Verif Require Import Model.Base.
Local Open Scope Z_scope.

Definition table := list (Z * Z * Qc).
Definition at_key (a b : Z) (e : Z * Z * Qc) : bool := (fst (fst e) =? a) && (snd (fst e) =? b).
(* table[a][b], read *)
Definition entry (t : table) (a b : Z) : Qc * table :=
  match find (at_key a b) t with Some e => (snd e, t) | None => (0%Qc, (a, b, 0%Qc) :: t) end.
(* table[a][b] = v *)
Definition store (t : table) (a b : Z) (v : Qc) : table := (a, b, v) :: filter (fun e => negb (at_key a b e)) t.

(* :18-36 and :38-56: energy(i,j), mobility(i,j) *)
Definition lookup (compute : Z -> Z -> Qc) (t : table) (i j : Z) : Qc * table :=
  if i =? j then (0%Qc, t)
  else
    let a := if i <? j then i else j in
    let b := if i >? j then i else j in
    let (energy, t) := entry t a b in
    if Qc_eq_dec energy 0 then (compute a b, store t a b (compute a b)) else (energy, t).

(* the state of the program and a call of one of the two functions *)
Record tables := mkTables { energy_table : table; mobility_table : table }.
Inductive query := Energy (i j : Z) | Mobility (i j : Z).
Definition ask (energy mobility : Z -> Z -> Qc) (t : tables) (q : query) : Qc * tables :=
  match q with
  | Energy i j => let (v, e) := lookup energy (energy_table t) i j in (v, mkTables e (mobility_table t))
  | Mobility i j => let (v, m) := lookup mobility (mobility_table t) i j in (v, mkTables (energy_table t) m)
  end.
(* a run of the program asks one thing after the other; the answers *)
Fixpoint asks (energy mobility : Z -> Z -> Qc) (t : tables) (qs : list query) : list Qc * tables :=
  match qs with
  | [] => ([], t)
  | q :: qs => let (v, t) := ask energy mobility t q in let (vs, t) := asks energy mobility t qs in (v :: vs, t)
  end.
Definition no_tables : tables := mkTables [] [].
