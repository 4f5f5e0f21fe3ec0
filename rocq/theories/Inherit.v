(** Model of src/task/resolve_inherit.rs. *)
From Coq Require Import List Bool NArith Arith String Lia.
From Verif Require Import Names Num Value Dom DomFacts DomOps Outcome APass Links.
Import ListNotations.
Local Open Scope nat_scope.

(** src/task/resolve_inherit.rs:42-57: the SVG attributes whose value is the keyword [v]. *)
Definition keyword_attrs (v : vid) (d : ndata) : list aid :=
  flat_map (fun x => match a_name x, a_val x with
                     | AN a, VPre w => if vid_eqb w v then [a] else []
                     | _, _ => []
                     end) (attrs d).
(** src/task/resolve_inherit.rs:76-88 [resolve_impl]; the panic of [set_attribute] for links that svgdom does not
    allow is in [resolve_inherit]. *)
Definition resolve_impl (anc : list ndata) (curr par : aid) (d : ndata) : result ndata :=
  match find (fun n => d_has n par) anc with
  | Some n => match d_get n par with Some v => Ok (d_set d curr v) | None => Ok d end
  | None => Err (UnresolvedAttribute curr)
  end.
(** src/task/resolve_inherit.rs:63-70: one attribute that is currentColor. *)
Definition resolve_color (anc : list ndata) (a : aid) (d : ndata) : result ndata :=
  match d_get d AColor with
  | Some v => Ok (d_set d a v)
  | None => resolve_impl anc a AColor d
  end.
(** The two loops [for id in ...] *)
Fixpoint each (f : aid -> ndata -> result ndata) (l : list aid) (d : ndata) : result ndata :=
  match l with [] => Ok d | a :: l' => bind (f a d) (each f l') end.
(** src/task/resolve_inherit.rs:38-71: one node; both lists are collected before any change. *)
Definition inherit_node (anc : list ndata) (d : ndata) : result ndata :=
  if is_svg_el d then
    bind (each (fun a => resolve_impl anc a a) (keyword_attrs Vid_inherit d) d)
         (each (resolve_color anc) (keyword_attrs Vid_currentColor d))
  else Ok d.
(** The attributes set in lines 66 and 80, with their new values in [t'], are allowed. Links are never replaced by this
    pass, so a link between two elements in both directions is seen in the final document. *)
Definition keyword_attr (d : ndata) (x : attr) : bool :=
  match a_name x with AN a => existsb (aid_eqb a) (keyword_attrs Vid_inherit d ++ keyword_attrs Vid_currentColor d) | ANx _ => false end.
Definition links_allowed (t t' : tree) : bool :=
  forallb (fun d' => match find_data (key d') t with
                     | Some d => forallb (fun x => negb (keyword_attr d x) || put_ok t' d' x) (attrs d')
                     | None => true
                     end) (flat t').
(** src/task/resolve_inherit.rs:34-74. Simplification: if both a link is not allowed and an attribute is unresolvable,
    the latter is reported, whichever comes first. *)
Definition resolve_inherit (t : tree) : result tree :=
  bind (apass inherit_node [] t) (fun t' => if links_allowed t t' then Ok t' else Panic).
