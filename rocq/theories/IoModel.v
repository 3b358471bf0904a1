(** Model of mav_trajectory_generation/io.{h,cpp} and of the nanosecond
    conversions of Segment and mav_msgs.
    Sources: MTG/src/io.cpp, MTG/include/mav_trajectory_generation/io.h,
    MTG/include/mav_trajectory_generation/segment.h,
    MTG/include/mav_msgs/common.hpp.

    Simplifications: a YAML document is a tree whose scalars are numbers (that
    yaml-cpp prints a double with enough digits to read it back is assumed);
    map keys are strings.  [Undef] stands for a thrown YAML exception, a failed
    CHECK or an access out of bounds. *)
From Coq Require Import String Reals List ZArith Arith Bool.
From Flocq Require Import Core.
From Verif Require Import Base PolyModel VertexModel TrajModel RotModel SamplingModel.
Import List ListNotations.
Local Open Scope R_scope.
Set Bullet Behavior "Strict Subproofs".

(** Rounding of a real to the nearest binary64 number (ties to even). *)
Definition exp64 : Z -> Z := FLT_exp (-1074) 53.
Definition double64 (x : R) : R := round radix2 exp64 ZnearestE x.
Definition is_double (x : R) : Prop := generic_format radix2 exp64 x.

(* ------------------------------------------------------------------ *)
(** ** Nanoseconds *)

(** getTimeNSec - segment.h:58-60 and setTimeNSec - segment.h:63, with the
    constants of segment.h:36-37; [rnd] rounds the result of every operation
    on doubles.  A negative time (undefined conversion) is outside the model. *)
Definition get_time_ns (rnd : R -> R) (t : R) : Z := Ztrunc (rnd (10 ^ 9 * t)).
Definition set_time_ns (rnd : R -> R) (n : Z) : R := rnd (rnd (IZR n) * rnd (/ 10 ^ 9)).

(** nanosecondsToSeconds, secondsToNanoseconds - common.hpp:359-368. *)
Definition nanosecondsToSeconds (rnd : R -> R) (n : Z) : R := rnd (rnd (IZR n) / 10 ^ 9).
Definition secondsToNanoseconds (rnd : R -> R) (t : R) : Z := Ztrunc (rnd (t * 10 ^ 9)).

(* ------------------------------------------------------------------ *)
(** ** YAML trees *)

Inductive yaml :=
  | YNull
  | YInt (z : Z)
  | YReal (r : R)
  | YSeq (l : list yaml)
  | YMap (l : list (string * yaml)).

Fixpoint assoc (k : string) (l : list (string * yaml)) : option yaml :=
  match l with
  | [] => None
  | (k', v) :: l' => if String.eqb k k' then Some v else assoc k l'
  end.
(** node[key] with a string key: an absent key gives an undefined node
    ([Val None]); indexing a scalar throws. *)
Definition get_key (k : string) (y : yaml) : res (option yaml) :=
  match y with
  | YMap l => Val (assoc k l)
  | YSeq _ | YNull => Val None
  | YInt _ | YReal _ => Undef
  end.
(** node[i]; integer keys of maps are not modelled. *)
Definition get_index (i : nat) (y : yaml) : res (option yaml) :=
  match y with
  | YSeq l => Val (nth_error l i)
  | YNull => Val None
  | YMap _ | YInt _ | YReal _ => Undef
  end.
Definition ysize (y : yaml) : nat :=
  match y with YSeq l => length l | YMap l => length l | _ => 0%nat end.
(** as<int>, as<uint64_t>, as<double>: throw when the text does not convert. *)
Definition as_int (y : yaml) : res Z :=
  match y with YInt z => if ((- 2 ^ 31 <=? z) && (z <? 2 ^ 31))%Z then Val z else Undef | _ => Undef end.
Definition as_uint64 (y : yaml) : res Z :=
  match y with YInt z => if ((0 <=? z) && (z <? 2 ^ 64))%Z then Val z else Undef | _ => Undef end.
Definition as_double (y : yaml) : res R :=
  match y with YReal r => Val r | YInt z => Val (IZR z) | _ => Undef end.

Definition bind {A B : Type} (x : res A) (f : A -> res B) : res B :=
  match x with Val a => f a | Failed => Failed | Undef => Undef end.
(** Use of an undefined node where a value is needed: throws InvalidNode. *)
Definition defined (x : res (option yaml)) : res yaml :=
  bind x (fun o => match o with Some y => Val y | None => Undef end).
(** if (!node[key]) return false; *)
Definition required (x : res (option yaml)) : res yaml :=
  bind x (fun o => match o with Some y => Val y | None => Failed end).
Fixpoint map_res {A B : Type} (f : A -> res B) (l : list A) : res (list B) :=
  match l with
  | [] => Val []
  | a :: l' => bind (f a) (fun b => bind (map_res f l') (fun bs => Val (b :: bs)))
  end.

Definition kSegments := "segments"%string.
Definition kN := "N"%string.
Definition kD := "D"%string.
Definition kTime := "time"%string.
Definition kCoefficients := "coefficients"%string.

Section Rounding.
Context (rnd : R -> R).

(* ------------------------------------------------------------------ *)
(** ** YAML nodes *)

(** coefficientsToYaml - io.cpp:35-41. *)
Definition coefficients_to_yaml (p : poly) : yaml := YSeq (map YReal p).
(** segmentToYaml - io.cpp:43-54; without dimensions the key "coefficients" is
    never created. *)
Definition segment_to_yaml (s : segment) : yaml :=
  YMap ([(kN, YInt (Z.of_nat (s_N s))); (kD, YInt (Z.of_nat (s_D s)));
         (kTime, YInt (get_time_ns rnd (s_time s)))] ++
        (if (s_D s =? 0)%nat then []
         else [(kCoefficients, YSeq (map (fun i => coefficients_to_yaml (seg_poly s i)) (seq 0 (s_D s))))])).
(** segmentsToYaml - io.cpp:56-62: without segments the node stays null. *)
Definition segments_to_yaml (ss : list segment) : yaml :=
  match ss with
  | [] => YNull
  | _ => YMap [(kSegments, YSeq (map segment_to_yaml ss))]
  end.
(** trajectoryToYaml - io.cpp:64-68. *)
Definition trajectory_to_yaml (tr : trajectory) : yaml := segments_to_yaml (t_segs tr).

(** coefficientsFromYaml - io.cpp:70-79. *)
Definition coefficients_from_yaml (y : yaml) : res poly :=
  match y with YSeq l => map_res as_double l | _ => Failed end.
(** segmentFromYaml - io.cpp:81-102.  [Segment(N, D)] with a negative argument
    throws.  The number of coefficients is not compared with N. *)
Definition segment_from_yaml (y : yaml) : res segment :=
  bind (required (get_key kN y)) (fun yN =>
  bind (required (get_key kD y)) (fun yD =>
  bind (required (get_key kTime y)) (fun yt =>
  bind (required (get_key kCoefficients y)) (fun yc =>
  match yc with
  | YSeq _ =>
      bind (as_int yN) (fun N => bind (as_int yD) (fun D =>
      if (N <? 0)%Z || (D <? 0)%Z then Undef
      else
        bind (map_res (fun i => bind (defined (get_index i yc)) coefficients_from_yaml)
                      (seq 0 (Z.to_nat D))) (fun polys =>
        bind (as_uint64 yt) (fun t =>
        Val (mkSeg (set_time_ns rnd t) (Z.to_nat N) (Z.to_nat D) polys)))))
  | _ => Failed
  end)))).
(** segmentsFromYaml - io.cpp:104-114. *)
Definition segments_from_yaml (y : yaml) : res (list segment) :=
  match y with YSeq l => map_res segment_from_yaml l | _ => Failed end.
(** trajectoryFromYaml - io.cpp:116-124. *)
Definition trajectory_from_yaml (y : yaml) : res trajectory :=
  bind (defined (get_key kSegments y)) (fun ys =>
  bind (segments_from_yaml ys) (fun ss =>
  match set_segments_gen (fun a b => rnd (a + b)) ss with Some tr => Val tr | None => Undef end)).

(* ------------------------------------------------------------------ *)
(** ** Files *)

(** Document written by segmentsToFile - io.cpp:126-167 ([None]: a polynomial
    has fewer than N coefficients, read out of bounds). *)
Definition file_row (s : segment) (i : nat) : option yaml :=
  if (length (seg_poly s i) <? s_N s)%nat then None
  else Some (YSeq (map YReal (firstn (s_N s) (seg_poly s i)))).
Fixpoint all_some {A : Type} (l : list (option A)) : option (list A) :=
  match l with
  | [] => Some []
  | Some a :: l' => match all_some l' with Some r => Some (a :: r) | None => None end
  | None :: _ => None
  end.
Definition segment_to_file (s : segment) : option yaml :=
  match all_some (map (file_row s) (seq 0 (s_D s))) with
  | Some rows => Some (YMap [(kN, YInt (Z.of_nat (s_N s))); (kD, YInt (Z.of_nat (s_D s)));
      (kTime, YInt (get_time_ns rnd (s_time s))); (kCoefficients, YSeq rows)])
  | None => None
  end.
Definition segments_to_file (ss : list segment) : option yaml :=
  match all_some (map segment_to_file ss) with
  | Some l => Some (YMap [(kSegments, YSeq l)])
  | None => None
  end.

(** One round of the loop of segmentsFromFile - io.cpp:184-209.  [Failed]:
    the function returns false. *)
Definition file_coefficient (y : yaml) (k : nat) : res R := bind (defined (get_index k y)) as_double.
Definition file_polynomial (N : nat) (yc : yaml) (j : nat) : res poly :=
  bind (defined (get_index j yc)) (fun row =>
  if negb (ysize row =? N)%nat then Failed else map_res (file_coefficient row) (seq 0 N)).
Definition segment_from_file (y : yaml) : res segment :=
  bind (required (get_key kN y)) (fun yN =>
  bind (required (get_key kD y)) (fun yD =>
  bind (required (get_key kTime y)) (fun yt =>
  bind (required (get_key kCoefficients y)) (fun yc =>
  bind (as_int yN) (fun N => bind (as_int yD) (fun D =>
  if (N <? 0)%Z || (D <? 0)%Z then Undef
  else
    bind (as_uint64 yt) (fun t =>
    if negb (ysize yc =? Z.to_nat D)%nat then Failed
    else
      bind (map_res (file_polynomial (Z.to_nat N) yc) (seq 0 (Z.to_nat D))) (fun polys =>
      Val (mkSeg (set_time_ns rnd t) (Z.to_nat N) (Z.to_nat D) polys))))))))).
(** The loop over the entries: return value and the segments read so far. *)
Fixpoint segments_file_loop (n i : nat) (ys : yaml) (acc : list segment) : res (bool * list segment) :=
  match n with
  | O => Val (true, acc)
  | S m =>
      bind (defined (get_index i ys)) (fun y =>
      match segment_from_file y with
      | Val s => segments_file_loop m (S i) ys (acc ++ [s])
      | Failed => Val (false, acc)
      | Undef => Undef
      end)
  end.
(** segmentsFromFile - io.cpp:169-219.  [None]: the file cannot be opened (the
    output is left alone). *)
Definition segments_from_file (file : option yaml) (old : list segment) : res (bool * list segment) :=
  match file with
  | None => Val (false, old)
  | Some y =>
      bind (get_key kSegments y) (fun o =>
      match o with
      | None => Val (false, [])
      | Some ys => segments_file_loop (ysize ys) 0 ys []
      end)
  end.
(** trajectoryFromFile - io.h:56-63: return value and the trajectory. *)
Definition trajectory_from_file (file : option yaml) : res (bool * trajectory) :=
  bind (segments_from_file file []) (fun r =>
  match set_segments_gen (fun a b => rnd (a + b)) (snd r) with
  | Some tr => Val (fst r, tr)
  | None => Undef
  end).
(** trajectoryToFile - io.h:45-51: the document written. *)
Definition trajectory_to_file (tr : trajectory) : option yaml := segments_to_file (t_segs tr).
End Rounding.

(* ------------------------------------------------------------------ *)
(** ** Table of sampled states *)

(** The row written for one state - io.cpp:247-258 (columns 0..25). *)
Definition state_row (p : point) : list R :=
  [IZR (p_from_start p)] ++ v3_list (p_position p) ++ v3_list (p_velocity p) ++ v3_list (p_acceleration p) ++
  v3_list (p_jerk p) ++ v3_list (p_snap p) ++
  [qw (p_orientation p); qx (p_orientation p); qy (p_orientation p); qz (p_orientation p)] ++
  v3_list (p_ang_vel p) ++ v3_list (p_ang_acc p).
(** sampledTrajectoryStatesToFile - io.cpp:221-279: the matrix written.  Column
    26 of row j holds the end time of segment j; with more segments than rows
    the access is out of bounds ([Undef]). *)
Definition end_time (segs : list segment) (j : nat) : R :=
  fold_left (fun acc s => acc + s_time s) (firstn (S j) segs) 0.
Definition states_table (fuel : nat) (quat_of : M3 -> quat) (tr : trajectory) : res (list (list R)) :=
  bind (sample_whole_trajectory fuel quat_of tr (1 / 100) []) (fun pts =>
  if (length pts <? length (t_segs tr))%nat then Undef
  else Val (map (fun i => state_row (nth i pts point_default) ++
                          [if (i <? length (t_segs tr))%nat then end_time (t_segs tr) i else 0])
                (seq 0 (length pts)))).
