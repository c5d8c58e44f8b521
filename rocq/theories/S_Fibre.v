(** Specification vocabulary for the export of fibre sections. *)
From Coquelicot Require Import Coquelicot.
From Coq Require Import Reals String List ZArith.
From Verif Require Import Base S_Integral M_Fea S_Fem M_Section M_Init M_Solver M_Fibre.
Import ListNotations.
Local Open Scope R_scope.

(** The cell lumps the element: its area, and its centroid by the first moments. *)
Definition lumps (el : tri6) (c : cell) : Prop :=
  c_area c = el_int el (fun _ _ => 1) /\ c_area c * c_y c = el_int el (fun x _ => x) /\ c_area c * c_z c = el_int el (fun _ y => y).
(** The cell has the value and the slopes, at its own point, of the quadratic function with the nodal values [u]. *)
Definition warps (el : tri6) (u : nat -> R) (c : cell) : Prop :=
  exists k0 k1 k2 k3 k4 k5, let q := quad k0 k1 k2 k3 k4 k5 in
    nodal q el = gather u (el_ids el) /\ c_omega c = q (c_y c) (c_z c) /\
    is_derive (fun t => q t (c_z c)) (c_y c) (c_py c) /\ is_derive (fun t => q (c_y c) t) (c_z c) (c_pz c).

(** Text *)
Definition occurs (w s : string) : Prop := exists a b, s = (a ++ w ++ b)%string.
Definition joined (l : list string) : string := fold_right String.append EmptyString l.
Definition cont : string := (backslash ++ newline)%string.
(** The line of a cell: its words, with blanks between them *)
Definition cell_line (fmt : R -> string) (k : cell_class) (c : cell) : string :=
  String.concat " " (match k with
    | Cell2D => ["section"; "Cell2D"; str_int (c_tag c); fmt (c_area c); c_material c; fmt (c_y c)]
    | Cell3D => ["section"; "Cell3D"; str_int (c_tag c); fmt (c_area c); c_material c; fmt (c_y c); fmt (c_z c)]
    | Cell3DOS => ["section"; "Cell3DOS"; str_int (c_tag c); fmt (c_area c); fmt (c_omega c); fmt (c_py c); fmt (c_pz c); c_material c; fmt (c_y c); fmt (c_z c)]
    end)%string.
(** The text of the cells, one on each line *)
Definition block (fmt : R -> string) (k : cell_class) (cells : list cell) : string := (String.concat newline (map (cell_line fmt k) cells) ++ newline ++ newline)%string.
(** The command that lists the tags begins with [start] and is written on several lines. A line that is continued on the next one (with
    [cont]) is the first to be longer than the given width: without its last tag it is not (or it is just the start of the command). *)
Definition tag_word (c : cell) : string := (str_int (c_tag c) ++ " ")%string.
Definition fits (max_width : Z) (start a : string) : Prop := (Z.of_nat (String.length a) <= max_width)%Z \/ a = start \/ a = EmptyString.
Definition full_line (max_width : Z) (start : string) (cells : list cell) (l : string) : Prop :=
  (max_width < Z.of_nat (String.length l))%Z /\ exists a c, In c cells /\ l = (a ++ tag_word c)%string /\ fits max_width start a.
Definition listing (max_width : Z) (start : string) (cells : list cell) (text : string) : Prop :=
  exists lines last, text = (joined (map (fun l => l ++ cont) lines) ++ last)%string /\ (joined lines ++ last)%string = (start ++ joined (map tag_word cells))%string /\
    Forall (full_line max_width start cells) lines /\ fits max_width start last.
(** The words of the text of a cell but its material *)
Definition cell_words (fmt : R -> string) (k : cell_class) (c : cell) : list string :=
  [str_int (c_tag c); fmt (c_area c); fmt (c_y c)] ++
  match k with Cell2D => ["section"; "Cell2D"]%string | Cell3D => [fmt (c_z c); "section"; "Cell3D"]%string
             | Cell3DOS => [fmt (c_z c); fmt (c_omega c); fmt (c_py c); fmt (c_pz c); "section"; "Cell3DOS"]%string end.
(** The dictionary can be applied by textual replacement: a name in it is not part of any other word of the text - of the notes at
    the top, the list of tags, the words and numbers of the cells, the other material names - nor of a tag in the dictionary. *)
Definition applicable (fmt : R -> string) (k : cell_class) (top : string) (cells : list cell) (l : list (string * Z)) : Prop :=
  forall name tag, In (name, tag) l ->
    dashed name <> EmptyString /\ ~ occurs (dashed name) top /\
    (forall c, In c cells -> Forall (fun w => ~ occurs (dashed name) w) (cell_words fmt k c) /\ (c_material c = dashed name \/ ~ occurs (dashed name) (c_material c))) /\
    (forall name' tag', In (name', tag') l -> ~ occurs (dashed name) (str_int tag')).
(** What stands for a material name: the tag of the first entry of the dictionary with that name *)
Fixpoint tagged (l : list (string * Z)) (w : string) : string :=
  match l with [] => w | (name, tag) :: rest => if String.eqb (dashed name) w then str_int tag else tagged rest w end.
Definition with_material (c : cell) (w : string) : cell := mkCell (c_tag c) (c_area c) w (c_y c) (c_z c) (c_omega c) (c_py c) (c_pz c).
