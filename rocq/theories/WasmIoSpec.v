(** What printing a text puts out, given the answers of the host: independent of how the text gets there. *)
From Verif Require Export Base IoModel.
Open Scope Z_scope.

(** Everything is out; the rest was given up after a failure; the host has not answered yet. *)
Inductive print_status := Complete | Dropped | Unanswered.

(** [printed text sched out st rest]: [out] is what the host takes of [text] when it answers as in [sched]; [rest] are the
    answers not used. *)
Inductive printed : list byte -> list wevent -> list byte -> print_status -> list wevent -> Prop :=
| Print_done sched : printed [] sched [] Complete sched
| Print_unanswered text : text <> [] -> printed text [] [] Unanswered []
| Print_part text k sched out st rest :
    text <> [] -> (0 < k)%nat -> printed (skipn k text) sched out st rest -> printed text (WAccept k :: sched) (firstn k text ++ out) st rest
| Print_interrupted text sched out st rest :
    text <> [] -> printed text sched out st rest -> printed text (WIntr :: sched) out st rest
| Print_stalled text sched : text <> [] -> printed text (WAccept 0 :: sched) [] Dropped sched
| Print_failed text c sched : text <> [] -> printed text (WFail c :: sched) [] Dropped sched.

(** A host that follows the interface: it never reports more than it was given, and an error has a number of its own. *)
Definition honest (e : wevent) : Prop :=
  match e with WAccept _ => True | WIntr => True | WFail c => 0 < c < 65536 /\ c <> 27 | WBogus _ => False end.
(** A host that takes something or was interrupted. *)
Definition helpful (e : wevent) : Prop :=
  match e with WAccept k => (0 < k)%nat | WIntr => True | _ => False end.
Definition takes (e : wevent) : nat := match e with WAccept k => k | _ => 0%nat end.
(** How many bytes the host is ready to take. *)
Definition room (sched : list wevent) : nat := list_sum (map takes sched).

(** The text to print. *)
Definition line (text : list byte) (newline : bool) : list byte := text ++ (if newline then [10] else []).
(** The bytes [from .. from + n) of an array. *)
Definition part (l : list byte) (from n : Z) : list byte := firstn (Z.to_nat n) (skipn (Z.to_nat from) l).

(** The memory printing uses: the cells for the host after what is there already, then the text. *)
Definition reserved (base : Z) : Z := (base + 3) / 4 * 4 + 12.
Definition needed (base : Z) (text : list byte) : Z := reserved base + Z.of_nat (List.length text).
Definition pages_for (n : Z) : Z := (n + 65535) / 65536.
(** There is enough memory, or the engine gives it. *)
Definition memory_suffices (grows : Z -> Z -> bool) (pgs n : Z) : Prop :=
  pages_for n <= pgs \/ grows pgs (pages_for n - pgs) = true.
(** A range of an array of bytes that the engine can hold. *)
Definition valid_bytes (l : list byte) (from n : Z) : Prop :=
  0 <= from /\ 0 <= n /\ from + n <= Z.of_nat (List.length l) /\ Z.of_nat (List.length l) < 4294967296 /\
  Forall (fun b => 0 <= b < 256) l.
