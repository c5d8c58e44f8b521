(** Model of src/sectionproperties/post/fibre.py. Definitions only. Strings are ASCII. The text of a number in a format like
    [:.8e] is a function argument [fmt]. *)
From Coq Require Import Reals String Ascii List Bool Arith ZArith Decimal DecimalString.
From Verif Require Import Base M_Fea M_Section M_Init M_Solver.
Import ListNotations.
Local Open Scope R_scope.

(** str(int) *)
Definition str_int (z : Z) : string := NilZero.string_of_int (Z.to_int z).
(** str.upper of one character *)
Definition upper_char (c : ascii) : ascii := let n := nat_of_ascii c in if (Nat.leb 97 n && Nat.leb n 122)%bool then ascii_of_nat (n - 32) else c.
Fixpoint upper (s : string) : string := match s with EmptyString => EmptyString | String c r => String (upper_char c) (upper r) end.
(** str.isspace of one ASCII character *)
Definition is_space (c : ascii) : bool := let n := nat_of_ascii c in ((Nat.leb 9 n && Nat.leb n 13) || (Nat.leb 28 n && Nat.leb n 32))%bool.
(** str.split(): the words of a string; [w] is the word being read *)
Fixpoint split_from (w s : string) : list string :=
  match s with
  | EmptyString => match w with EmptyString => [] | _ => [w] end
  | String c r => if is_space c then match w with EmptyString => split_from EmptyString r | _ => w :: split_from EmptyString r end
                  else split_from (w ++ String c EmptyString) r
  end.
Definition split (s : string) : list string := split_from EmptyString s.
(** fibre.py 60 and 216: "-".join(name.split()) *)
Definition dashed (name : string) : string := String.concat "-" (split name).
(** str.replace(old, new). [skip] characters of a match are still to be dropped. An empty [old] matches before every character and at the end. *)
Fixpoint replace_from (old new : string) (skip : nat) (s : string) : string :=
  match s with
  | EmptyString => EmptyString
  | String c r =>
      match skip with
      | S k => replace_from old new k r
      | O => if String.prefix old s then (new ++ replace_from old new (String.length old - 1) r)%string else String c (replace_from old new 0 r)
      end
  end.
Fixpoint interleave (new s : string) : string := match s with EmptyString => new | String c r => (new ++ String c (interleave new r))%string end.
Definition replace (old new s : string) : string := match old with EmptyString => interleave new s | _ => replace_from old new 0 s end.

(** fibre.py 21-70: Cell *)
Record cell : Type := mkCell { c_tag : Z; c_area : R; c_material : string; c_y : R; c_z : R; c_omega : R; c_py : R; c_pz : R }.
Definition new_cell (ele : element) (omega : option (nat -> R)) : cell :=
  let t := e_tri ele in
  let s := shape_function (el_x t) (el_y t) (mkGp 0 (1 / 3) (1 / 3) (1 / 3)) in
  let mean := fun v => (v0 v + v1 v + v2 v) / 3 in
  let '(w, py, pz) := match omega with
    | Some u => let o := gather u (el_ids t) in (dot6 o (sh_n s), dot6 (sh_b0 s) o, dot6 (sh_b1 s) o)
    | None => (0, 0, 0)
    end in
  mkCell (Z.of_nat (e_id ele) + 1) (sh_j s) (dashed (mo_name (e_mat ele))) (mean (el_x t)) (mean (el_y t)) w py pz.

(** fibre.py 84-125: Cell2D, Cell3D, Cell3DOS *)
Inductive cell_class : Type := Cell2D | Cell3D | Cell3DOS.
Definition export (fmt : R -> string) (k : cell_class) (c : cell) : string :=
  match k with
  | Cell2D => "section Cell2D " ++ str_int (c_tag c) ++ " " ++ fmt (c_area c) ++ " " ++ c_material c ++ " " ++ fmt (c_y c)
  | Cell3D => "section Cell3D " ++ str_int (c_tag c) ++ " " ++ fmt (c_area c) ++ " " ++ c_material c ++ " " ++ fmt (c_y c) ++ " " ++ fmt (c_z c)
  | Cell3DOS => "section Cell3DOS " ++ str_int (c_tag c) ++ " " ++ fmt (c_area c) ++ " " ++ fmt (c_omega c) ++ " " ++ fmt (c_py c) ++ " " ++ fmt (c_pz c) ++ " "
                ++ c_material c ++ " " ++ fmt (c_y c) ++ " " ++ fmt (c_z c)
  end%string.

(** fibre.py 167-181 *)
Definition class_of (analysis_type : string) : result (cell_class * string) :=
  let t := upper analysis_type in
  if String.eqb t "2D" then Ok (Cell2D, "Fibre2D"%string) else if String.eqb t "3D" then Ok (Cell3D, "Fibre3D"%string)
  else if String.eqb t "3DOS" then Ok (Cell3DOS, "Fibre3DOS"%string) else Err ValueError.

Definition newline : string := String (ascii_of_nat 10) EmptyString.
Definition backslash : string := String (ascii_of_nat 92) EmptyString.
(** fibre.py 193-200 *)
Definition fibre_header : string :=
  ("# This is generated by sectionproperties library." ++ newline ++
   "# Please note the following:" ++ newline ++
   "#   1. The warping function and its derivatives (if present) are computed in the" ++ newline ++
   "#      local coordinate system (about origin)." ++ newline ++
   "#   2. Beware of the potential different orientations of beam section." ++ newline ++
   "#   3. It may be necessary to manually adjust the material tags." ++ newline ++
   "#   4. If uncertain, please validate the behaviour first." ++ newline)%string.
(** fibre.py 202-208: the loop over the cells; [commands] and [part] so far *)
Definition wrap_step (max_width : Z) (st : string * string) (c : cell) : string * string :=
  let '(commands, part) := st in
  let part := (part ++ str_int (c_tag c) ++ " ")%string in
  if (max_width <? Z.of_nat (String.length part))%Z then ((commands ++ part ++ backslash ++ newline)%string, EmptyString) else (commands, part).
Definition set_tag (main : Z) (c : cell) : cell := mkCell (c_tag c + main) (c_area c) (c_material c) (c_y c) (c_z c) (c_omega c) (c_py c) (c_pz c).
(** fibre.py 202-212: the text, from the cells *)
Definition fibre_text (fmt : R -> string) (k : cell_class) (fibre_class : string) (main max_width : Z) (cells : list cell) : string :=
  let cells := map (set_tag main) cells in
  let '(commands, part) := fold_left (wrap_step max_width) cells (fibre_header, ("section " ++ fibre_class ++ " " ++ str_int main ++ " ")%string) in
  (commands ++ part ++ newline ++ newline ++ String.concat newline (map (export fmt k) cells) ++ newline ++ newline)%string.
(** fibre.py 214-216; [mapping] lists the items of the dictionary in order *)
Definition apply_mapping (mapping : option (list (string * Z))) (text : string) : string :=
  match mapping with None => text | Some l => fold_left (fun t '(name, tag) => replace (dashed name) (str_int tag) t) l text end.

(** The first argument: a Geometry or CompoundGeometry with its mesh and materials, a Section of one, or something else *)
Inductive fibre_input : Type :=
| FromGeometry (mesh : option raw_mesh) (mats : list mat_obj) | FromSection (mesh : option raw_mesh) (mats : list mat_obj) | FromOther.

(** fibre.py 183-191: the section and its cells *)
Definition fibre_cells (spsolve : direct_oracle) (k : cell_class) (mesh : option raw_mesh) (mats : list mat_obj) : result (list cell) :=
  bind (section_init mesh mats) (fun s =>
  bind (match k with
        | Cell3DOS => let n := length (s_nodes s) in
            let '(stiffness, force) := assemble_torsion n (s_tris s) in bind (solve_direct_lagrange n spsolve stiffness force) (fun u => Ok (Some u))
        | _ => Ok None
        end) (fun omega =>
  Ok (map (fun ele => new_cell ele omega) (s_els s)))).
(** fibre.py 128-222: to_fibre_section. The second component is what is written to a file: (path, contents). *)
Definition to_fibre_section (fmt : R -> string) (spsolve : direct_oracle) (obj : fibre_input) (main : Z) (analysis_type : string)
    (mapping : option (list (string * Z))) (max_width : Z) (save_to : option string) : result (string * option (string * string)) :=
  bind (match obj with FromGeometry me ma => Ok (me, ma) | FromSection me ma => Ok (me, ma) | FromOther => Err TypeError end) (fun '(mesh, mats) =>
  bind (class_of analysis_type) (fun '(k, fibre_class) =>
  bind (fibre_cells spsolve k mesh mats) (fun cells =>
  let text := apply_mapping mapping (fibre_text fmt k fibre_class main max_width cells) in
  Ok (text, option_map (fun path => (path, text)) save_to)))).
