(** Model of src/performance.rs and of the timers of the stages in src/stages.rs. Times are exact rationals. *)
From Coq Require Import String QArith ZArith Bool Arith List.
Import ListNotations.
Local Open Scope nat_scope.

(** ** Stages *)
(** src/stages.rs:13-29, [CoreStage], src/simulation_plugin/mod.rs:35-61: the labels of the stages. *)
Inductive stage : Type := First | Initial | Sweep | AfterSweep | CreateOutputFiles | Output | Final | Last.
Inductive startup_stage : Type :=
  | SInitial | SReadInput | SInsertDerivedComponents | SDecomposition | SSetOutgoingEntities | SExchange | SAssignParticleIds
  | STreeConstruction | SRemap | SInsertGrid | SInsertComponentsAfterGrid | SInitSweep | SFinal.
Inductive label : Type := Timer (k : nat) | Main (s : stage) | Startup (s : startup_stage).

(** src/stages.rs:30-49 [TimerStages::all]. *)
Definition all_timers : list label := map Timer [1; 2; 3; 4; 5; 6; 7; 8; 9; 10; 11; 12; 13; 14].
(** src/stages.rs:52-63 [get_stages], 65-81 [get_startup_stages]. *)
Definition get_stages : list label := map Main [First; Initial; Sweep; AfterSweep; CreateOutputFiles; Output; Final; Last].
Definition get_startup_stages : list label :=
  map Startup [SInitial; SReadInput; SInsertDerivedComponents; SDecomposition; SSetOutgoingEntities; SExchange; SAssignParticleIds;
    STreeConstruction; SRemap; SInsertGrid; SInsertComponentsAfterGrid; SInitSweep; SFinal].

(** src/stages.rs:83-96 [add_timers]; [None] is the failed assertion. *)
Definition add_timers (stages : list label) : option (list label) :=
  if length stages <? length all_timers
  then Some (flat_map (fun p => [fst p; snd p]) (combine all_timers stages) ++ [last all_timers (Timer 0)])
  else None.

(** ** Performance *)
(** The names of measurements. The string of a label ([as_str]) names the enum and the variant, so that different labels have different
    strings, and none of them is a string that the program uses for its own measurements. *)
Inductive name : Type := OfLabel (l : label) | Own (s : string).

(** src/performance.rs:20-24 [Result]. *)
Inductive result : Type := RunTimes (times : list Q) | Number (n : Z).

(** src/performance.rs:91-96 [Performance]; a timer holds the moment at which it was started. *)
Record performance : Type := Perf { results : name -> option result; timers : name -> option Q }.
Definition empty : performance := Perf (fun _ => None) (fun _ => None).

Definition label_eq_dec (a b : label) : {a = b} + {a <> b}.
Proof. decide equality; [apply Nat.eq_dec | decide equality | decide equality]. Defined.
Definition name_eq_dec (a b : name) : {a = b} + {a <> b}.
Proof. decide equality; [apply label_eq_dec | apply string_dec]. Defined.
Definition update {A} (f : name -> A) (n : name) (a : A) : name -> A := fun m => if name_eq_dec m n then a else f m.

(** What the systems do with it. *)
Inductive op : Type := Start (n : name) | Stop (n : name) | Record (n : name) (val : Z).

(** src/performance.rs:98-131 [start], [stop], [record_number], at the moment [t]. A result which is a number panics in [add_timing]
    (27-37). [try_into] an [i32] fails outside of its range. [time] (133-136) is [start], and [stop] when the guard is dropped. *)
Definition in_i32 (z : Z) : bool := ((- 2 ^ 31 <=? z) && (z <? 2 ^ 31))%Z.
Definition perform (o : op) (t : Q) (p : performance) : option performance :=
  match o with
  | Start n => Some (Perf (results p) (update (timers p) n (Some t)))
  | Stop n =>
      match timers p n with
      | None => None
      | Some started =>
          let timers := update (timers p) n None in
          match results p n with
          | None => Some (Perf (update (results p) n (Some (RunTimes [t - started]%Q))) timers)
          | Some (RunTimes l) => Some (Perf (update (results p) n (Some (RunTimes (l ++ [t - started]%Q)))) timers)
          | Some (Number _) => None
          end
      end
  | Record n val => if in_i32 val then Some (Perf (update (results p) n (Some (Number val))) (timers p)) else None
  end.
(** A sequence of operations with the moments of their execution. *)
Fixpoint perform_all (l : list (Q * op)) (p : performance) : option performance :=
  match l with
  | [] => Some p
  | (t, o) :: l => match perform o t p with Some p => perform_all l p | None => None end
  end.

(** src/performance.rs:59-74 [Statistics], 49-56 [as_value]: total, average and number of calls; an average of no calls is not a
    number. *)
Inductive value : Type := Statistics (total : Q) (average : option Q) (num_calls : nat) | Plain (n : Z).
Definition statistics (l : list Q) : value :=
  let total := fold_left Qplus l 0%Q in
  Statistics total (match l with [] => None | _ => Some (total / inject_Z (Z.of_nat (length l)))%Q end) (length l).
Definition as_value (r : result) : value := match r with RunTimes l => statistics l | Number n => Plain n end.

(** src/performance.rs:138-154 [as_output], as the map from names to values. *)
Definition TOTAL : name := Own "total".
Definition as_output (p : performance) (now : Q) (n : name) : option value :=
  match timers p TOTAL with
  | Some started => if name_eq_dec n TOTAL then Some (statistics [now - started]%Q) else option_map as_value (results p n)
  | None => option_map as_value (results p n)
  end.

(** ** The systems of the timer stages *)
(** src/stages.rs:115-129 [add_stage_timers_for_stages]: the systems that are added to a stage. *)
Definition is_timer_stage (l : label) : bool := if in_dec label_eq_dec l all_timers then true else false.
Fixpoint windows3 {A} (l : list A) : list (A * A * A) :=
  match l with
  | a :: (b :: c :: _) as rest => (a, b, c) :: windows3 rest
  | _ => []
  end.
Definition timer_systems (labels : list label) (at_ : label) : list op :=
  flat_map (fun w => let '(s1, s2, s3) := w in
    if is_timer_stage s2 then []
    else (if label_eq_dec s1 at_ then [Start (OfLabel s2)] else []) ++ (if label_eq_dec s3 at_ then [Stop (OfLabel s2)] else []))
    (windows3 labels).
