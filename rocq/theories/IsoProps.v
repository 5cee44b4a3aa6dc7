(** C140: isomorphic simplicial complexes get the same homology report; the report is determined by the homology groups. *)
From Coq Require Import List Arith ZArith Bool Lia ZifyBool ZifyNat Sorted.
From Verif Require Import PidModel LinModel LinSpec LinProofs3 MatModel MatSpec HomModel HomSpec HomProps SimpModel SimpSpec SimpProps IsoSpec IsoProofs IsoProofs4 IsoProofs5.
Import ListNotations.
Open Scope nat_scope.

(** Renaming the vertices, listing the simplices or their vertices in another order, attaching faces of simplices that are
    attached anyway: none of it changes the reported free ranks and torsion. The bases of the two complexes may be ordered
    in any way. *)
Theorem C140_isomorphic : forall T U (eqT : T -> T -> bool) (eqU : U -> U -> bool) f g hist hist' d,
  (forall x y, eqT x y = true <-> x = y) -> (forall x y, eqU x y = true <-> x = y) -> valid_hist hist -> valid_hist hist' ->
  length (skeleton eqT hist) <= 64 -> has_dim hist d -> simplicial_iso f g hist hist' ->
  has_dim hist' d /\ length (skeleton eqU hist') = length (skeleton eqT hist) /\ exists K bm K' bm', attach_all eqT hist = Some K /\ boundary_map K = Some bm /\ attach_all eqU hist' = Some K' /\ boundary_map K' = Some bm' /\
    forall cmp cmp' max_dim, total_order cmp -> total_order cmp' -> exists out out',
      integral_homology cmp bm max_dim = Some out /\ integral_homology cmp' bm' max_dim = Some out' /\
      forall k, reported_rank out k = reported_rank out' k /\ reported_divisors out k = reported_divisors out' k.
Proof.
  intros T U eqT eqU f g hist hist' d HT HU V V' L Hd SI. pose proof (iso_dim f g hist hist' d V V' SI Hd) as Hd'. split; [exact Hd'|].
  assert (LE : length (skeleton eqU hist') = length (skeleton eqT hist)). { apply Nat.le_antisymm; [exact (iso_skeleton eqT eqU f g hist hist' HT HU SI)|]. apply (iso_skeleton eqU eqT g f hist' hist HU HT). destruct SI as (I1 & I2 & I3 & I4). repeat split; assumption. }
  split; [exact LE|]. assert (L' : length (skeleton eqU hist') <= 64) by lia.
  destruct (facts eqT hist d HT V L Hd) as (K & bm & EK & EB & LB & CD & HC & H0 & HE). destruct (facts eqU hist' d HU V' L' Hd') as (K' & bm' & EK' & EB' & LB' & CD' & HC' & H0' & HE').
  exists K, bm, K', bm'. split; [exact EK|]. split; [exact EB|]. split; [exact EK'|]. split; [exact EB'|]. intros cmp cmp' max_dim Ht Ht'.
  apply (same_report cmp cmp' bm bm' max_dim Ht Ht' CD CD'); [congruence|]. intros k D D' ED ED' ms. apply (iso_transport eqT eqU f g hist hist' d); assumption.
Qed.

(** The same set of faces, attached in any order, with any order of the vertices in each simplex. *)
Theorem C140_reorder : forall T (eqb : T -> T -> bool) hist hist' d, (forall x y, eqb x y = true <-> x = y) -> valid_hist hist -> valid_hist hist' ->
  length (skeleton eqb hist) <= 64 -> has_dim hist d ->
  (forall s, In s hist -> face_of hist' s) -> (forall s, In s hist' -> face_of hist s) ->
  exists K bm K' bm', attach_all eqb hist = Some K /\ boundary_map K = Some bm /\ attach_all eqb hist' = Some K' /\ boundary_map K' = Some bm' /\
    forall cmp cmp' max_dim, total_order cmp -> total_order cmp' -> exists out out',
      integral_homology cmp bm max_dim = Some out /\ integral_homology cmp' bm' max_dim = Some out' /\
      forall k, reported_rank out k = reported_rank out' k /\ reported_divisors out k = reported_divisors out' k.
Proof.
  intros T eqb hist hist' d He V V' L Hd F F'. apply (C140_isomorphic T T eqb eqb (fun x => x) (fun x => x) hist hist' d He He V V' L Hd).
  split; [reflexivity|]. split; [reflexivity|]. split; intros s Hs; rewrite map_id; auto.
Qed.

(** For any chain complex the report is determined by the homology group: whoever presents the cycles modulo the
    boundaries as Z^r x Z/e1 x .. x Z/em with each e dividing the next has found the reported numbers. *)
Theorem C140_canonical : forall B cmp (bms : list (mat Z * list B)) max_dim, total_order cmp -> complex_data bms ->
  exists out, integral_homology cmp bms max_dim = Some out /\
    forall k d r es, nth_error (map fst bms) k = Some d -> match max_dim with None => True | Some m => k <= m end ->
      Forall (fun e => fst e <> 0%Z) es -> StronglySorted Z.divide (flat_map (fun e => repeat (fst e) (snd e)) es) ->
      quotient_is (in_kernel d) (boundaries_of (map fst bms) k) (group_of r es) -> r = reported_rank out k /\ proper_divisors es = reported_divisors out k.
Proof.
  intros B cmp bms max_dim Ht CD. destruct (C43_homology_partial B cmp bms max_dim Ht CD) as (out & EO & LO & H1 & H2). exists out. split; [exact EO|]. intros k d r es Ed Hm N S Q.
  assert (Hk : k < match max_dim with None => length bms | Some d => Nat.min (d + 1) (length bms) end). { assert (k < length bms) by (rewrite <- (map_length fst); apply nth_error_Some; congruence). destruct max_dim; lia. }
  unfold reported_rank, reported_divisors. destruct (nth_error out k) as [[[h cyc] bnd]|] eqn:E.
  - destruct (H1 k h cyc bnd E) as (d' & Ed' & Q' & _ & F & S'). rewrite Ed in Ed'. injection Ed' as <-. apply divisors_unique; try assumption; [eapply Forall_impl; [|exact F]; intros a Ha; apply Ha|]. exact (homology_unique _ _ _ _ Q Q').
  - apply nth_error_None in E. destruct (H2 k (conj E Hk)) as (d' & Ed' & Q'). rewrite Ed in Ed'. injection Ed' as <-. apply (divisors_unique r es 0 []); try assumption; [constructor|constructor|]. exact (homology_unique _ _ _ _ Q Q').
Qed.

(** A hollow triangle with a tail, and the same with vertices renamed, simplices listed in another order and turned round,
    and a redundant vertex attached. *)
Definition iso_f (x : nat) : nat := nth x [7; 3; 9; 4] x.
Definition iso_g (y : nat) : nat := match y with 7 => 0 | 3 => 1 | 9 => 2 | 4 => 3 | _ => y end.
Example C140_nontrivial : valid_hist [[0; 1]; [1; 2]; [0; 2]; [2; 3]] /\ valid_hist [[4]; [9; 4]; [9; 7]; [9; 3]; [7; 3]] /\ has_dim [[0; 1]; [1; 2]; [0; 2]; [2; 3]] 1 /\
  skeleton Nat.eqb [[0; 1]; [1; 2]; [0; 2]; [2; 3]] = [0; 1; 2; 3] /\ skeleton Nat.eqb [[4]; [9; 4]; [9; 7]; [9; 3]; [7; 3]] = [4; 9; 7; 3] /\
  simplicial_iso iso_f iso_g [[0; 1]; [1; 2]; [0; 2]; [2; 3]] [[4]; [9; 4]; [9; 7]; [9; 3]; [7; 3]].
Proof.
  assert (V : forall l : list (list nat), forallb (fun s => negb (length s =? 0) && (length (nodup Nat.eq_dec s) =? length s)) l = true -> valid_hist l).
  { intros l H. apply Forall_forall. intros s Hs. rewrite forallb_forall in H. specialize (H s Hs). split; [intros ->; discriminate|].
    assert (E : length (nodup Nat.eq_dec s) = length s) by lia. apply (NoDup_incl_NoDup (l := nodup Nat.eq_dec s)); [apply NoDup_nodup|lia|]. intros x Hx. now apply nodup_In in Hx. }
  split; [now apply V|]. split; [now apply V|]. split. { split; [exists [0; 1]; split; [now left|reflexivity]|]. intros s [<-|[<-|[<-|[<-|[]]]]]; cbn; lia. }
  split; [reflexivity|]. split; [reflexivity|]. split; [|split; [|split]].
  - intros s x [<-|[<-|[<-|[<-|[]]]]] [<-|[<-|[]]]; reflexivity.
  - intros s x [<-|[<-|[<-|[<-|[<-|[]]]]]] Hx; cbn in Hx; repeat (destruct Hx as [<-|Hx]; [reflexivity|]); now destruct Hx.
  - intros s [<-|[<-|[<-|[<-|[]]]]]; [exists [7; 3]|exists [9; 3]|exists [9; 7]|exists [9; 4]]; (split; [cbn; tauto|]); intros x Hx; cbn in Hx |- *; tauto.
  - intros s [<-|[<-|[<-|[<-|[<-|[]]]]]]; [exists [2; 3]|exists [2; 3]|exists [0; 2]|exists [1; 2]|exists [0; 1]]; (split; [cbn; tauto|]); intros x Hx; cbn in Hx |- *; tauto.
Qed.
Print Assumptions C140_isomorphic.
Print Assumptions C140_reorder.
Print Assumptions C140_canonical.
