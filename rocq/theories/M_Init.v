(** Model of Section.__init__ (src/sectionproperties/analysis/section.py 63-174), MaterialGroup (3459-3500)
    and of Material objects with their identity (src/sectionproperties/pre/pre.py 11-79). Definitions only.
    Not modelled: the spatial index of the mesh (165-171; a query oracle in M_Stress.v), time_info. *)
From Coq Require Import String Reals List Bool Arith.
From Verif Require Import Base M_Fea M_Section.
Import ListNotations.
Local Open Scope R_scope.

(** pre.py 11-64: a Material object. [mo_ref] is the identity of the Python object (what [is] compares);
    the other fields are those of the frozen dataclass. *)
Record mat_obj : Type := mkMatObj { mo_ref : nat; mo_name : string; mo_val : material; mo_color : string }.

Definition Reqb (a b : R) : bool := if Req_EM_T a b then true else false.

(** pre.py 11: dataclass(eq=True) compares the fields *)
Definition mat_eqb (a b : mat_obj) : bool :=
  String.eqb (mo_name a) (mo_name b) && Reqb (m_E (mo_val a)) (m_E (mo_val b)) &&
  Reqb (m_nu (mo_val a)) (m_nu (mo_val b)) && Reqb (m_fy (mo_val a)) (m_fy (mo_val b)) &&
  Reqb (m_rho (mo_val a)) (m_rho (mo_val b)) && String.eqb (mo_color a) (mo_color b).

(** Python's [a is b] *)
Definition mat_is (a b : mat_obj) : bool := Nat.eqb (mo_ref a) (mo_ref b).

(** Python's [m in l] for a list: identity or equality with a member *)
Definition mat_in (m : mat_obj) (l : list mat_obj) : bool := existsb (fun x => mat_is m x || mat_eqb m x) l.

(** pre.py 79: DEFAULT_MATERIAL (the module-level object; its identity is the number 0) *)
Definition default_val : material := mkMat 1 0 1 1.
Definition default_material : mat_obj := mkMatObj 0 "default" default_val "w".

(** The mesh dictionary of the geometry (pre.py 141-146): "vertices", "triangles" and the first column of
    "triangle_attributes". *)
Record raw_mesh : Type := mkRaw { rm_vertices : list (R * R); rm_triangles : list conn6; rm_attributes : list nat }.

(** section.py 107: mesh_elements[:, [3, 4, 5]] = mesh_elements[:, [5, 3, 4]] *)
Definition swap_mid (c : conn6) : conn6 := mkConn (c0 c) (c1 c) (c2 c) (c5 c) (c3 c) (c4 c).

(** A Tri6 object with its el_id and the Material object it refers to. *)
Record element : Type := mkElement { e_id : nat; e_tri : tri6; e_mat : mat_obj }.

(** section.py 140-156: the Tri6 object of the row number i. Indices out of range (an IndexError in Python)
    are not modelled: defaults are used. The failsafe for an empty list of materials (153-154) is never reached
    after the check at line 116. *)
Definition build_element (verts : list (R * R)) (mats : list mat_obj) (attrs : list nat) (i : nat) (row : conn6) : element :=
  let ids := swap_mid row in
  let m := nth (nth i attrs 0%nat) mats default_material in
  mkElement i
    (mkTri (gather (fun k => fst (nth k verts (0, 0))) ids) (gather (fun k => snd (nth k verts (0, 0))) ids) ids (mo_val m)) m.

Fixpoint build_from (verts : list (R * R)) (mats : list mat_obj) (attrs : list nat) (i : nat) (rows : list conn6) : list element :=
  match rows with
  | [] => []
  | row :: rest => build_element verts mats attrs i row :: build_from verts mats attrs (S i) rest
  end.

(** section.py 123-134: one group for each material not in the materials before it; [seen] is materials[:idx] *)
Fixpoint group_materials (seen rest : list mat_obj) : list mat_obj :=
  match rest with
  | [] => []
  | m :: tl => if mat_in m seen then group_materials (seen ++ [m]) tl else m :: group_materials (seen ++ [m]) tl
  end.

(** A MaterialGroup: its material and its elements in the order they were added. *)
Definition group : Type := (mat_obj * list element)%type.

(** section.py 159-163: add the element to the first group whose material is the element's material object *)
Fixpoint add_element (gs : list group) (e : element) : list group :=
  match gs with
  | [] => []
  | (m, l) :: rest => if mat_is (e_mat e) m then (m, l ++ [e]) :: rest else (m, l) :: add_element rest e
  end.

(** The attributes of a Section set by its constructor. *)
Record section_obj : Type := mkSection {
  s_mats : list mat_obj; s_nodes : list (R * R); s_els : list element; s_groups : list group }.

(** section.py 63-174: Section.__init__ for a geometry with the given mesh (None when there is none, or it is
    empty) and the given materials (one for a Geometry, those of the sub-geometries for a CompoundGeometry).
    Python's max of an empty sequence also raises ValueError. *)
Definition section_init (mesh : option raw_mesh) (mats : list mat_obj) : result section_obj :=
  match mesh with
  | None => Err ValueError
  | Some m =>
      match rm_attributes m with
      | [] => Err ValueError
      | _ =>
          if Nat.eqb (length mats) (list_max (rm_attributes m) + 1) then
            let els := build_from (rm_vertices m) mats (rm_attributes m) 0 (rm_triangles m) in
            let groups := fold_left add_element els (map (fun g => (g, [])) (group_materials [] mats)) in
            Ok (mkSection mats (rm_vertices m) els groups)
          else Err ValueError
      end
  end.

(** section.py 1906-1915: is_composite. list(set(materials)) == [DEFAULT_MATERIAL] when there are materials
    and all equal the default one. *)
Definition is_composite (mats : list mat_obj) : bool :=
  negb (match mats with [] => false | _ => forallb (fun m => mat_eqb m default_material) mats end).

(** The finite elements and the groups as used by the numerical functions. *)
Definition s_tris (s : section_obj) : list tri6 := map e_tri (s_els s).
Definition s_group_tris (s : section_obj) : list (material * list tri6) :=
  map (fun g => (mo_val (fst g), map e_tri (snd g))) (s_groups s).
