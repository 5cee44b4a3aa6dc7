(** Model of EdgePath (topo_spaces/src/cubical.rs:1155-1272): words in the oriented edges of a graph, arranged in steps. *)
From Coq Require Import List Arith Bool.
From Verif Require Import PidModel.
Import ListNotations.
Open Scope nat_scope.

(** cubical.rs:1155-1156: the type [usize; 2] of an oriented edge and the field of [EdgePath]. *)
Notation oedge := (nat * nat)%type.
Definition path := list (list oedge).

(** cubical.rs:1159-1161 [trivial_path]; 1268-1272 [From<Vec<Vec<..>>>] is the identity of this representation. *)
Definition trivial_path : path := [].

(** cubical.rs:1165-1172, the closure [commute]. *)
Definition commute (v : list oedge) (w : oedge) : bool :=
  forallb (fun i => negb ((fst i =? snd w) || (snd i =? fst w) || (snd i =? snd w) || (fst i =? fst w))) v.
(** cubical.rs:1174-1181, the closure [composable]. *)
Definition composable (v : list oedge) (w : oedge) : bool :=
  forallb (fun i => negb ((snd i =? fst w) || (fst i =? snd w) || (snd i =? snd w) || (fst i =? fst w))) v.
(** cubical.rs:1183-1189, the closure [cancelable]. *)
Definition cancelable (v w : oedge) : bool := (snd v =? fst w) && (fst v =? snd w).

(** [Vec::remove] and pushing to the i-th column; both panic out of bounds. *)
Fixpoint remove_at {A} (l : list A) (i : nat) : option (list A) :=
  match l, i with
  | [], _ => None
  | _ :: r, 0 => Some r
  | a :: r, S j => do r' <- remove_at r j; Some (a :: r')
  end.
Fixpoint set_at {A} (l : list A) (i : nat) (v : A) : option (list A) :=
  match l, i with
  | [], _ => None
  | _ :: r, 0 => Some (v :: r)
  | a :: r, S j => do r' <- set_at r j v; Some (a :: r')
  end.
Definition push_at (out : path) (i : nat) (s : oedge) : option path :=
  do c <- nth_error out i; set_at out i (c ++ [s]).

(** cubical.rs:1193-1213, one iteration of the loop: the new columns and whether something cancelled. *)
Definition reduce_step (out : path) (step : oedge) : option (path * bool) :=
  match find (fun i => negb (commute (nth i out []) step)) (rev (seq 0 (length out))) with
  | Some i =>
      do c <- nth_error out i;
      if composable c step then do o <- push_at out i step; Some (o, false) else
      match find (fun j => cancelable (nth j c (0, 0)) step) (seq 0 (length c)) with
      | Some idx =>
          do c' <- remove_at c idx;
          match c' with
          | [] => do o <- remove_at out i; Some (o, true)
          | _ => do o <- set_at out i c'; Some (o, true)
          end
      | None => if i + 1 =? length out then Some (out ++ [[step]], false)
                else do o <- push_at out (i + 1) step; Some (o, false)
      end
  | None => do o <- push_at out 0 step; Some (o, false)
  end.

(** cubical.rs:1191-1213, the loop over the flattened path. *)
Fixpoint reduce_loop (w : list oedge) (out : path) (some_canceled : bool) : option (path * bool) :=
  match w with
  | [] => Some (out, some_canceled)
  | s :: w' => do r <- reduce_step out s; reduce_loop w' (fst r) (some_canceled || snd r)
  end.

(** cubical.rs:1162-1220 [reduce_to_geodesic]; the recursive call is bounded by fuel ([None] when it runs out; it is proved
    that two levels suffice). *)
Fixpoint reduce_rec (fuel : nat) (p : path) : option path :=
  match fuel with
  | 0 => None
  | S f => do r <- reduce_loop (concat p) [[]] false;
           if snd r then reduce_rec f (fst r) else Some (fst r)
  end.
Definition reduce (p : path) : option path := reduce_rec (S (S (length (concat p)))) p.

(** cubical.rs:1222-1225 [composed_with]. *)
Definition composed_with (p q : path) : path := p ++ q.

(** cubical.rs:1248-1260 [inverse]. *)
Definition inverse (p : path) : option path :=
  let p1 := map (map (fun e : oedge => (snd e, fst e))) p in
  let p2 := map (@rev oedge) p1 in
  reduce (rev p2).

(** cubical.rs:1234-1241: one step; every lookup is made in the configuration [out] before the step. *)
Fixpoint eval_moves (out next : list nat) (moves : list oedge) : option (list nat) :=
  match moves with
  | [] => Some next
  | e :: r => do i <- find (fun i => nth i out 0 =? fst e) (seq 0 (length out));
              do next' <- set_at next i (snd e);
              eval_moves out next' r
  end.
Fixpoint eval_steps (out : list nat) (steps : path) : option (list nat) :=
  match steps with
  | [] => Some out
  | s :: r => do out' <- eval_moves out out s; eval_steps out' r
  end.
(** cubical.rs:1227-1246 [evaluate_permutation::<N>]; [ConstPermutation::from] (permutation.rs:645-649) keeps the array. *)
Definition evaluate (n : nat) (p : path) : option (list nat) := eval_steps (seq 0 n) p.
