(* Words for C113: the file that a run writes on a machine with another byte order. *)
From Coq Require Import String.
From Verif Require Import Model.Base Model.Text Model.Boundary Model.Layout Model.Access Model.Setup Model.Codec Model.File Model.Simulate Model.Endian
  Spec.Box Spec.Bytes Spec.Decomp Spec.File Spec.Jobs Spec.Runs Spec.Endian Props.File.
Local Open Scope list_scope.
Local Open Scope Z_scope.

(* the nodes of a box, the last coordinate running fastest *)
Fixpoint nodes_in (lo hi : list Z) : list (list Z) :=
  match lo, hi with
  | l :: lo, h :: hi => flat_map (fun x => map (cons x) (nodes_in lo hi)) (zrange l h)
  | _, _ => [[]]
  end.

Section Moved.
Context {T S : Type} (nums : T -> list (list byte)) (order pack : list byte -> list byte) (dshow : S -> list byte).
Context (name : list byte) (fields : Z) (gs : list gaxis) (dx : list S) (B : list (Z * Z)) (gh np : Z) (V : list Z -> T).

(* what rank r of np has to store: the limits and boundary conditions of its part of the grid and the numbers of the values of the field V in it *)
Definition rank_block (r : Z) : block :=
  let axs := rank_axes np gs gh B r in
  mkBlock (map (fun a => (a_x0 a, a_x1 a)) axs) (map (fun a => (a_b0 a, a_b1 a)) axs)
          (flat_map (fun x => nums (V x)) (nodes_in (map a_x0 axs) (map a_x1 axs))).
(* the file of np ranks with the field V, on a machine that stores the bytes of a number in the given order and packs data with [pack] *)
Definition machine_file : list byte := stored_file order pack (header dshow name fields gs dx) (map rank_block (zrange 0 np)).
End Moved.

(* A field D that np ranks can store, here ([file], see Spec/Jobs.v) and on a machine of the other byte order, in a grid of a type that wrongendian
   can convert (t: its name in the file); [pack] is the compression there, or the identity *)
Record movable (t : string) (k : cells_kind) (w : Z) {T} (c : codec T) (nums : T -> list (list byte)) (valid : T -> Prop) (fresh : Z -> T)
    {S} (dshow : S -> list byte) (dparse : list byte -> option S) (compress : list byte -> list byte) (uncompress : list byte -> Z -> option (list byte))
    {F} (fshow : F -> list byte) (fparse : list byte -> option F) (pack : list byte -> list byte)
    (fields : Z) (gs : list gaxis) (dx : list S) (B : list (Z * Z)) (gh np : Z) (D : list T) (V : list Z -> T) (file : list byte) : Prop := {
  v_store : storable c valid fresh dshow dparse compress uncompress (bytes t) fields gs dx B gh;
  v_type : In (t, k, w) supported; v_cells : cell_type k w T c nums valid; v_dim : zlen gs <= 3;
  v_text : exists fs, Forall2 (fun d f => dshow d = fshow f /\ exact_text fshow fparse f) dx fs;   (* spacings survive being read as floats *)
  v_pack : unpacks pack uncompress;
  v_size : forall r, 0 <= r < np -> well_sized (@rev byte) pack (rank_block nums gs B gh np V r);
  v_all : zlen D = cells (whole gs B); v_field : has_field gs B D V;
  v_here : checkpoint c valid dshow dparse false compress (bytes t) fields gs dx B gh np D file
}.
