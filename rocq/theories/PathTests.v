(** The unit tests of src/task/paths/*.rs, replayed on the model (generated by tools/paths.py). Sanity
    checks that the model behaves like the code on these inputs; no property rests on them. *)
From Coq Require Import List Bool ZArith.
From Verif Require Import Num Value Paths.
Import ListNotations.
Definition same (o : option (list seg)) (l : list seg) : bool := match o with Some m => list_eqb seg_eqb m l | None => false end.

(** src/task/paths/rm_unused.rs, test rm_dulp_moveto_1 *)
Example rm_dulp_moveto_1 : same (remove_unused_loop 30 (conv_to_absolute [Seg false (MoveTo (zq 10) (zq 10)); Seg false (MoveTo (zq 20) (zq 20)); Seg false (LineTo (zq 10) (zq 20))])) [MoveTo (zq 30) (zq 30); LineTo (zq 40) (zq 50)] = true.
Proof. vm_compute. reflexivity. Qed.
(** src/task/paths/rm_unused.rs, test rm_dulp_moveto_2 *)
Example rm_dulp_moveto_2 : same (remove_unused_loop 30 (conv_to_absolute [Seg false (MoveTo (zq 10) (zq 10)); Seg false (LineTo (zq 20) (zq 20)); Seg false (LineTo (zq 10) (zq 20))])) [MoveTo (zq 10) (zq 10); LineTo (zq 30) (zq 30); LineTo (zq 40) (zq 50)] = true.
Proof. vm_compute. reflexivity. Qed.
(** src/task/paths/rm_unused.rs, test rm_dulp_moveto_3 *)
Example rm_dulp_moveto_3 : same (remove_unused_loop 30 (conv_to_absolute [Seg true (MoveTo (zq 10) (zq 10)); Seg true (MoveTo (zq 10) (zq 10)); Seg true (MoveTo (zq 10) (zq 10)); Seg true (MoveTo (zq 10) (zq 10)); Seg true (LineTo (zq 15) (zq 20))])) [MoveTo (zq 10) (zq 10); LineTo (zq 15) (zq 20)] = true.
Proof. vm_compute. reflexivity. Qed.
(** src/task/paths/rm_unused.rs, test rm_single_1 *)
Example rm_single_1 : same (remove_unused_loop 30 (conv_to_absolute [Seg true (MoveTo (zq 10) (zq 10))])) [] = true.
Proof. vm_compute. reflexivity. Qed.
(** src/task/paths/rm_unused.rs, test rm_mz_1 *)
Example rm_mz_1 : same (remove_unused_loop 30 (conv_to_absolute [Seg true (MoveTo (zq 10) (zq 10)); Seg true (ClosePath)])) [] = true.
Proof. vm_compute. reflexivity. Qed.
(** src/task/paths/rm_unused.rs, test rm_mz_2 *)
Example rm_mz_2 : same (remove_unused_loop 30 (conv_to_absolute [Seg true (MoveTo (zq 10) (zq 10)); Seg true (ClosePath); Seg true (MoveTo (zq 10) (zq 10)); Seg true (ClosePath); Seg true (MoveTo (zq 10) (zq 10)); Seg true (ClosePath)])) [] = true.
Proof. vm_compute. reflexivity. Qed.
(** src/task/paths/rm_unused.rs, test rm_mz_3 *)
Example rm_mz_3 : same (remove_unused_loop 30 (conv_to_absolute [Seg true (MoveTo (zq 10) (zq 10)); Seg true (LineTo (zq 15) (zq 20)); Seg true (MoveTo (zq 10) (zq 20)); Seg true (ClosePath); Seg true (MoveTo (zq 10) (zq 20)); Seg true (LineTo (zq 15) (zq 30))])) [MoveTo (zq 10) (zq 10); LineTo (zq 15) (zq 20); MoveTo (zq 10) (zq 20); LineTo (zq 15) (zq 30)] = true.
Proof. vm_compute. reflexivity. Qed.
(** src/task/paths/rm_unused.rs, test rm_z_1 *)
Example rm_z_1 : same (remove_unused_loop 30 (conv_to_absolute [Seg true (MoveTo (zq 10) (zq 10)); Seg true (ClosePath); Seg true (ClosePath); Seg true (ClosePath)])) [] = true.
Proof. vm_compute. reflexivity. Qed.
(** src/task/paths/rm_unused.rs, test rm_z_2 *)
Example rm_z_2 : same (remove_unused_loop 30 (conv_to_absolute [Seg true (MoveTo (zq 10) (zq 10)); Seg true (LineTo (zq 15) (zq 20)); Seg true (ClosePath); Seg true (ClosePath); Seg true (ClosePath); Seg true (MoveTo (zq 10) (zq 20)); Seg true (LineTo (zq 20) (zq 30))])) [MoveTo (zq 10) (zq 10); LineTo (zq 15) (zq 20); ClosePath; MoveTo (zq 10) (zq 20); LineTo (zq 20) (zq 30)] = true.
Proof. vm_compute. reflexivity. Qed.
(** src/task/paths/rm_unused.rs, test rm_zero_lenght_1 *)
Example rm_zero_lenght_1 : same (remove_unused_loop 30 (conv_to_absolute [Seg true (MoveTo (zq 10) (zq 10)); Seg true (LineTo (zq 10) (zq 20)); Seg true (LineTo (zq 10) (zq 20)); Seg true (LineTo (zq 10) (zq 20)); Seg true (ClosePath)])) [MoveTo (zq 10) (zq 10); LineTo (zq 10) (zq 20); ClosePath] = true.
Proof. vm_compute. reflexivity. Qed.
(** src/task/paths/rm_unused.rs, test rm_zero_lenght_2 *)
Example rm_zero_lenght_2 : same (remove_unused_loop 30 (conv_to_absolute [Seg true (MoveTo (zq 10) (zq 10)); Seg true (LineTo (zq 10) (zq 10))])) [] = true.
Proof. vm_compute. reflexivity. Qed.
(** src/task/paths/rm_unused.rs, test keep_zero_lenght_1 *)
Example keep_zero_lenght_1 : same (remove_unused_loop 30 (conv_to_absolute [Seg true (MoveTo (zq 10) (zq 10)); Seg true (CurveTo (zq 20) (zq 20) (zq 30) (zq 30) (zq 10) (zq 10))])) [MoveTo (zq 10) (zq 10); CurveTo (zq 20) (zq 20) (zq 30) (zq 30) (zq 10) (zq 10)] = true.
Proof. vm_compute. reflexivity. Qed.
(** src/task/paths/rm_unused.rs, test rm_equal_1 *)
Example rm_equal_1 : same (remove_unused_loop 30 (conv_to_absolute [Seg true (MoveTo (zq 10) (zq 10)); Seg true (CurveTo (zq 20) (zq 20) (zq 30) (zq 30) (zq 10) (zq 10)); Seg true (CurveTo (zq 20) (zq 20) (zq 30) (zq 30) (zq 10) (zq 10))])) [MoveTo (zq 10) (zq 10); CurveTo (zq 20) (zq 20) (zq 30) (zq 30) (zq 10) (zq 10)] = true.
Proof. vm_compute. reflexivity. Qed.
(** src/task/paths/rm_unused.rs, test rm_equal_2 *)
Example rm_equal_2 : same (remove_unused_loop 30 (conv_to_absolute [Seg true (MoveTo (zq 10) (zq 10)); Seg true (LineTo (zq 20) (zq 20)); Seg true (LineTo (zq 20) (zq 20)); Seg true (LineTo (zq 20) (zq 20))])) [MoveTo (zq 10) (zq 10); LineTo (zq 20) (zq 20)] = true.
Proof. vm_compute. reflexivity. Qed.
(** src/task/paths/rm_unused.rs, test rm_lz_1 *)
Example rm_lz_1 : same (remove_unused_loop 30 (conv_to_absolute [Seg true (MoveTo (zq 10) (zq 10)); Seg true (LineTo (zq 50) (zq 50)); Seg true (LineTo (zq 10) (zq 10)); Seg true (ClosePath)])) [MoveTo (zq 10) (zq 10); LineTo (zq 50) (zq 50); ClosePath] = true.
Proof. vm_compute. reflexivity. Qed.
(** src/task/paths/rm_unused.rs, test rm_lz_2 *)
Example rm_lz_2 : same (remove_unused_loop 30 (conv_to_absolute [Seg true (MoveTo (zq 10) (zq 10)); Seg true (LineTo (zq 50) (zq 50)); Seg true (LineTo (zq 10) (zq 10))])) [MoveTo (zq 10) (zq 10); LineTo (zq 50) (zq 50); ClosePath] = true.
Proof. vm_compute. reflexivity. Qed.
(** src/task/paths/rm_unused.rs, test rm_lz_3 *)
Example rm_lz_3 : same (remove_unused_loop 30 (conv_to_absolute [Seg true (MoveTo (zq 10) (zq 10)); Seg true (LineTo (zq 50) (zq 50)); Seg true (LineTo (zq 10) (zq 10)); Seg true (MoveTo (zq 50) (zq 50)); Seg true (LineTo (zq 60) (zq 60))])) [MoveTo (zq 10) (zq 10); LineTo (zq 50) (zq 50); ClosePath; MoveTo (zq 50) (zq 50); LineTo (zq 60) (zq 60)] = true.
Proof. vm_compute. reflexivity. Qed.
(** src/task/paths/rm_unused.rs, test rm_lz_4 *)
Example rm_lz_4 : same (remove_unused_loop 30 (conv_to_absolute [Seg true (MoveTo (zq 10) (zq 10)); Seg true (LineTo (zq 50) (zq 50)); Seg true (LineTo (zq 10) (zq 10)); Seg true (MoveTo (zq 50) (zq 50)); Seg true (LineTo (zq 50) (zq 50))])) [MoveTo (zq 10) (zq 10); LineTo (zq 50) (zq 50); ClosePath] = true.
Proof. vm_compute. reflexivity. Qed.
(** src/task/paths/conv_segments.rs, test conv_cs_1 *)
Example conv_cs_1 : same (convert_segments_loop 30 (conv_to_absolute [Seg true (MoveTo (zq 10) (zq 20)); Seg true (CurveTo (zq 10) (zq 10) (zq 25) (zq 10) (zq 25) (zq 20)); Seg true (CurveTo (zq 25) (zq 30) (zq 40) (zq 30) (zq 40) (zq 20))])) [MoveTo (zq 10) (zq 20); CurveTo (zq 10) (zq 10) (zq 25) (zq 10) (zq 25) (zq 20); SmoothCurve (zq 40) (zq 30) (zq 40) (zq 20)] = true.
Proof. vm_compute. reflexivity. Qed.
(** src/task/paths/conv_segments.rs, test conv_cs_2 *)
Example conv_cs_2 : same (convert_segments_loop 30 (conv_to_absolute [Seg true (MoveTo (zq 10) (zq 10)); Seg true (CurveTo (zq 10) (zq 10) (zq 10) (zq 20) (zq 30) (zq 40)); Seg true (CurveTo (zq 20) (zq 35) (zq 40) (zq 50) (zq 60) (zq 70)); Seg true (CurveTo (zq 80) (zq 90) (zq 10) (zq 20) (zq 30) (zq 40))])) [MoveTo (zq 10) (zq 10); SmoothCurve (zq 10) (zq 20) (zq 30) (zq 40); CurveTo (zq 20) (zq 35) (zq 40) (zq 50) (zq 60) (zq 70); SmoothCurve (zq 10) (zq 20) (zq 30) (zq 40)] = true.
Proof. vm_compute. reflexivity. Qed.
(** src/task/paths/conv_segments.rs, test conv_cv_1 *)
Example conv_cv_1 : same (convert_segments_loop 30 (conv_to_absolute [Seg true (MoveTo (zq 10) (zq 10)); Seg true (CurveTo (zq 10) (zq 15) (zq 10) (zq 20) (zq 10) (zq 40))])) [MoveTo (zq 10) (zq 10); LineTo (zq 10) (zq 40)] = true.
Proof. vm_compute. reflexivity. Qed.
(** src/task/paths/conv_segments.rs, test conv_cv_2 *)
Example conv_cv_2 : same (convert_segments_loop 30 (conv_to_absolute [Seg true (MoveTo (zq 10) (zq 10)); Seg true (CurveTo (zq 10) (zq 5) (zq 10) (zq 20) (zq 10) (zq 40))])) [MoveTo (zq 10) (zq 10); CurveTo (zq 10) (zq 5) (zq 10) (zq 20) (zq 10) (zq 40)] = true.
Proof. vm_compute. reflexivity. Qed.
(** src/task/paths/conv_segments.rs, test conv_cv_3 *)
Example conv_cv_3 : same (convert_segments_loop 30 (conv_to_absolute [Seg true (MoveTo (zq 10) (zq 10)); Seg true (CurveTo (zq 10) (zq 10) (zq 10) (zq 40) (zq 10) (zq 40))])) [MoveTo (zq 10) (zq 10); LineTo (zq 10) (zq 40)] = true.
Proof. vm_compute. reflexivity. Qed.
(** src/task/paths/conv_segments.rs, test conv_ch_1 *)
Example conv_ch_1 : same (convert_segments_loop 30 (conv_to_absolute [Seg true (MoveTo (zq 10) (zq 10)); Seg true (CurveTo (zq 15) (zq 10) (zq 25) (zq 10) (zq 40) (zq 10))])) [MoveTo (zq 10) (zq 10); LineTo (zq 40) (zq 10)] = true.
Proof. vm_compute. reflexivity. Qed.
(** src/task/paths/conv_segments.rs, test conv_ch_2 *)
Example conv_ch_2 : same (convert_segments_loop 30 (conv_to_absolute [Seg true (MoveTo (zq 10) (zq 10)); Seg true (CurveTo (zq 5) (zq 10) (zq 50) (zq 10) (zq 40) (zq 10))])) [MoveTo (zq 10) (zq 10); CurveTo (zq 5) (zq 10) (zq 50) (zq 10) (zq 40) (zq 10)] = true.
Proof. vm_compute. reflexivity. Qed.
(** src/task/paths/conv_segments.rs, test conv_ch_3 *)
Example conv_ch_3 : same (convert_segments_loop 30 (conv_to_absolute [Seg true (MoveTo (zq 10) (zq 10)); Seg true (CurveTo (zq 10) (zq 10) (zq 40) (zq 10) (zq 40) (zq 10))])) [MoveTo (zq 10) (zq 10); LineTo (zq 40) (zq 10)] = true.
Proof. vm_compute. reflexivity. Qed.
(** src/task/paths/conv_segments.rs, test conv_cl_1 *)
Example conv_cl_1 : same (convert_segments_loop 30 (conv_to_absolute [Seg true (MoveTo (zq 10) (zq 118)); Seg true (CurveTo (zq 45) (zq 83) (zq 85) (zq 43) (zq 120) (zq 8))])) [MoveTo (zq 10) (zq 118); LineTo (zq 120) (zq 8)] = true.
Proof. vm_compute. reflexivity. Qed.
(** src/task/paths/conv_segments.rs, test conv_cl_2 *)
Example conv_cl_2 : same (convert_segments_loop 30 (conv_to_absolute [Seg true (MoveTo (zq 10) (zq 15)); Seg true (CurveTo (zq 10) (zq 15) (fq (145) 2) (zq 10) (fq (145) 2) (zq 55)); Seg true (CurveTo (fq (145) 2) (zq 100) (zq 135) (zq 100) (zq 135) (zq 55)); Seg true (LineTo (zq 10) (zq 55))])) [MoveTo (zq 10) (zq 15); SmoothCurve (fq (145) 2) (zq 10) (fq (145) 2) (zq 55); SmoothCurve (zq 135) (zq 100) (zq 135) (zq 55); LineTo (zq 10) (zq 55)] = true.
Proof. vm_compute. reflexivity. Qed.
(** src/task/paths/conv_segments.rs, test hv_to_l_1 *)
Example hv_to_l_1 : same (convert_hv_to_l [MoveTo (zq 10) (zq 20); HLine (zq 30); VLine (zq 40); ClosePath; MoveTo (zq 10) (zq 20); HLine (zq 30); VLine (zq 40); ClosePath]) [MoveTo (zq 10) (zq 20); LineTo (zq 30) (zq 20); LineTo (zq 30) (zq 40); ClosePath; MoveTo (zq 10) (zq 20); LineTo (zq 30) (zq 20); LineTo (zq 30) (zq 40); ClosePath] && same (convert_l_to_hv [MoveTo (zq 10) (zq 20); LineTo (zq 30) (zq 20); LineTo (zq 30) (zq 40); ClosePath; MoveTo (zq 10) (zq 20); LineTo (zq 30) (zq 20); LineTo (zq 30) (zq 40); ClosePath]) [MoveTo (zq 10) (zq 20); HLine (zq 30); VLine (zq 40); ClosePath; MoveTo (zq 10) (zq 20); HLine (zq 30); VLine (zq 40); ClosePath] = true.
Proof. vm_compute. reflexivity. Qed.
(** src/task/paths/apply_transform.rs, test apply_1 *)
Example apply_1 : same (Some (apply_transform (Tr q1 q0 q0 q1 (zq 10) (zq 20)) q1 [MoveTo (zq 10) (zq 20); LineTo (zq 30) (zq 40)])) [MoveTo (zq 20) (zq 40); LineTo (zq 40) (zq 60)] = true.
Proof. vm_compute. reflexivity. Qed.
