(** What rounding to [p] decimal digits means. *)
From Coq Require Import List ZArith QArith Qcanon Qabs.
From Verif Require Import Names Num Value Dom.
Import ListNotations.

(** [r] is [n] rounded to [p] decimals: a multiple of 10^-p, at most half a unit of the last digit
    away; of two such multiples the one further from zero. *)
Record rounded (p : nat) (n r : Qc) : Prop := {
  rd_multiple : exists z : Z, (this r == inject_Z z / inject_Z (10 ^ Z.of_nat p))%Q;
  rd_near : (Qabs (this r - this n) <= (1 # 2) / inject_Z (10 ^ Z.of_nat p))%Q;
  rd_tie : (Qabs (this r - this n) == (1 # 2) / inject_Z (10 ^ Z.of_nat p) -> Qabs (this n) <= Qabs (this r))%Q
}.

(** All numbers of a value, in order. *)
Definition seg_nums (s : seg) : list Qc :=
  match s with
  | MoveTo x y | LineTo x y | SmoothQuad x y => [x; y]
  | HLine x => [x]
  | VLine y => [y]
  | CurveTo x1 y1 x2 y2 x y => [x1; y1; x2; y2; x; y]
  | SmoothCurve x2 y2 x y => [x2; y2; x; y]
  | Quad x1 y1 x y => [x1; y1; x; y]
  | Arc rx ry rot _ _ x y => [rx; ry; rot; x; y]
  | ClosePath => []
  end.
Definition nums (v : value) : list Qc :=
  match v with
  | VLen l => [num l]
  | VLenList l => map num l
  | VNum n => [n]
  | VNumList l => l
  | VTransform t => [ta t; tb t; tc t; td t; te t; tf t]
  | VPath p => flat_map (fun s => seg_nums (sdata s)) p
  | _ => []
  end.
(** The value with all numbers replaced by 0: what is not a number. *)
Definition z : Qc := q0.
Definition erase_seg (s : seg) : seg :=
  match s with
  | MoveTo _ _ => MoveTo z z | LineTo _ _ => LineTo z z | SmoothQuad _ _ => SmoothQuad z z
  | HLine _ => HLine z | VLine _ => VLine z
  | CurveTo _ _ _ _ _ _ => CurveTo z z z z z z
  | SmoothCurve _ _ _ _ => SmoothCurve z z z z
  | Quad _ _ _ _ => Quad z z z z
  | Arc _ _ _ l w _ _ => Arc z z z l w z z
  | ClosePath => ClosePath
  end.
Definition erase_nums (v : value) : value :=
  match v with
  | VLen l => VLen (Len z (unit l))
  | VLenList l => VLenList (map (fun l => Len z (unit l)) l)
  | VNum _ => VNum z
  | VNumList l => VNumList (map (fun _ => z) l)
  | VTransform _ => VTransform (Tr z z z z z z)
  | VPath p => VPath (map (fun s => Seg (absolute s) (erase_seg (sdata s))) p)
  | _ => v
  end.
