(** Model of the small passes: preclean_checks, remove_element, remove_unreferenced_ids, trim_ids,
    remove_version, ungroup_defs, remove_empty_defs, fix_xmlns_attribute, remove_default_transform. *)
From Coq Require Import List Bool NArith Arith ZArith String Lia.
From Verif Require Import Names Num Value Dom DomOps IdNum Outcome.
Import ListNotations.

(** [doc.descendants().svg()]: the SVG elements of the document in document order. *)
Definition svg_nodes (t : tree) : list ndata := filter is_svg_el (flat t).

(** src/task/preclean_checks.rs:40-59 [check_for_unsupported_elements]: the first SVG element that
    is a script or an animation decides. *)
Definition bad_element (d : ndata) : option error :=
  match tag d with
  | TEl EScript => Some Scripting
  | TEl (EAnimate | EAnimateColor | EAnimateMotion | EAnimateTransform | ESet) => Some Animation
  | _ => None
  end.
(** src/task/preclean_checks.rs:61-74 [check_for_script_attributes] *)
Definition is_event_attr (a : attr) : bool :=
  match a_name a with
  | AN x => is_graphical_event x || is_document_event x || is_animation_event x
  | ANx _ => false
  end.
Definition bad_event (d : ndata) : option error := if existsb is_event_attr (attrs d) then Some Scripting else None.
(** src/task/preclean_checks.rs:76-97 [check_for_conditional_attributes] *)
Definition nonempty_str (v : option value) : bool :=
  match v with Some (VStr s) => negb (String.eqb s "") | _ => false end.
Definition bad_condition (d : ndata) : option error :=
  if nonempty_str (d_get d ARequiredFeatures) || nonempty_str (d_get d ASystemLanguage) then Some Conditional else None.
(** src/task/preclean_checks.rs:99-120 [check_for_external_xlink] *)
Definition bad_href (d : ndata) : option error :=
  match tag d with
  | TEl (EA | EImage | EFontFaceUri | EFeImage) => None
  | _ => match d_get d AXlinkHref with Some (VStr s) => Some (ExternalHref s) | _ => None end
  end.
(** A loop over the nodes that returns at the first error. *)
Fixpoint first_error (f : ndata -> option error) (l : list ndata) : result Datatypes.unit :=
  match l with
  | [] => Ok tt
  | d :: l' => match f d with Some e => Err e | None => first_error f l' end
  end.
(** src/task/preclean_checks.rs:31-38 *)
Definition preclean_checks (t : tree) : result Datatypes.unit :=
  bind (first_error bad_element (svg_nodes t)) (fun _ =>
  bind (first_error bad_event (svg_nodes t)) (fun _ =>
  bind (first_error bad_condition (svg_nodes t)) (fun _ =>
  first_error bad_href (svg_nodes t)))).

(** src/task/rm_elems.rs:24-26 *)
Definition remove_element (e : eid) (t : tree) : tree := fst (drain (fun _ s => is_tag e (data s)) t).

(** src/task/rm_unref_ids.rs:21-27. Changing ids does not change who refers to whom. *)
Definition remove_unreferenced_ids (t : tree) : tree :=
  tmap (fun d => if has_id d && negb (is_used (key d) t) then with_id d "" else d) t.

(** src/task/trim_ids.rs:105-113; the state is the counter, [None] after a panic of [plus_one]. *)
Definition trim_node (s : option (list Z)) (d : ndata) : ndata * option (list Z) :=
  match s with
  | None => (d, None)
  | Some num => if is_svg_el d && has_id d then (with_id d (num_to_string num), plus_one num) else (d, Some num)
  end.
Definition trim_ids (t : tree) : result tree :=
  match smap trim_node (Some num_new) t with
  | (t', Some _) => Ok t'
  | (_, None) => Panic
  end.

(** [doc.svg_element().unwrap()] *)
Definition on_svg (t : tree) (f : tree -> result tree) : result tree :=
  match svg_element t with Some s => f s | None => Panic end.

(** src/task/rm_version.rs:23-28 *)
Definition remove_version (t : tree) : result tree :=
  on_svg t (fun s => Ok (upd (root_key s) (fun d => d_rm (d_rm d AVersion) ABaseProfile) t)).

(** src/task/final_fixes.rs:25-37 *)
Definition remove_empty_defs (t : tree) : result tree :=
  on_svg t (fun s =>
    match find (fun c => is_tag EDefs (data c) && match kids c with [] => true | _ => false end) (kids s) with
    | Some c => Ok (remove (root_key c) t)
    | None => Ok t
    end).

(** src/task/final_fixes.rs:39-65 *)
Definition has_links (t : tree) : bool :=
  existsb (fun d => is_used (key d) t || d_has d AXlinkHref) (svg_nodes t).
Definition xlink_ns : string := "http://www.w3.org/1999/xlink".
Definition fix_xmlns_attribute (rm_unused : bool) (t : tree) : result tree :=
  on_svg t (fun s =>
    let has_xlink := d_has (data s) AXmlnsXlink in
    if negb (has_links t) && rm_unused && has_xlink then Ok (upd (root_key s) (fun d => d_rm d AXmlnsXlink) t)
    else if has_links t && negb has_xlink then Ok (upd (root_key s) (fun d => d_set d AXmlnsXlink (VStr xlink_ns)) t)
    else Ok t).

(** src/task/rm_default_transform.rs:23-32 *)
Definition is_default_transform (v : option value) : bool :=
  match v with Some (VTransform ts) => transform_eqb ts t_id | _ => false end.
Definition remove_default_transform (t : tree) : tree :=
  tmap (fun d => if is_default_transform (d_get d ATransform) then d_rm d ATransform else d) t.

(** src/task/ungroup_defs.rs:27-47. The tree iterator has already fetched the first child of a defs
    when the body runs, so the walk continues through the moved children; when the defs is empty and
    was removed the iterator finds no parent and stops silently ([false]). *)
Definition ungroup_defs_step (st : tree * bool) (k : nat) : tree * bool :=
  let (t, go) := st in
  if negb go then st
  else match find_sub k t with
       | Some s =>
           if is_tag EDefs (data s) && forallb (fun c => tag_sat is_referenced (data c)) (kids s)
           then (unlink [k] (splice k t), match kids s with [] => false | _ => true end)
           else st
       | None => st
       end.
Definition ungroup_defs (t : tree) : tree := fst (fold_left ungroup_defs_step (tl (keys t)) (t, true)).
