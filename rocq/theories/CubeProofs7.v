(** [boundary_map] of an enumerated configuration complex: its matrices are the incidence matrices. *)
From Coq Require Import List Arith ZArith NArith Bool Lia ZifyBool ZifyNat ZifyN Permutation Sorted.
From Verif Require Import PidModel MatModel MatSpec MatProofs GraphModel GraphSpec HomSpec CubeModel CubeSpec CubeProofs CubeProofs2 CubeProofs4 CubeProofs5 CubeProps.
Import ListNotations.
Open Scope nat_scope.

Lemma foldM_list {A St} (f : St -> A -> option St) (P : list A -> St -> Prop) l : forall s, P [] s ->
  (forall pre x post s, l = pre ++ x :: post -> P pre s -> exists s', f s x = Some s' /\ P (pre ++ [x]) s') -> exists s', foldM f l s = Some s' /\ P l s'.
Proof.
  assert (G : forall l2 l1 s, P l1 s -> (forall pre x post s, l1 ++ l2 = pre ++ x :: post -> P pre s -> exists s', f s x = Some s' /\ P (pre ++ [x]) s') -> exists s', foldM f l2 s = Some s' /\ P (l1 ++ l2) s').
  { induction l2 as [|x l2 IH]; intros l1 s H0 HS; [exists s; rewrite app_nil_r; auto|]. cbn [foldM]. destruct (HS l1 x l2 s eq_refl H0) as (s' & E & H'). rewrite E. cbn [obind].
    destruct (IH (l1 ++ [x]) s' H') as (s2 & E2 & H2); [intros; eapply HS; [rewrite <- H, <- app_assoc; reflexivity|assumption]|]. exists s2. split; [exact E2|]. now rewrite <- app_assoc in H2. }
  intros s H0 HS. apply (G l [] s H0 HS).
Qed.
Lemma lset_map_seq {A} (f : nat -> A) n k x : k < n -> lset (map f (seq 0 n)) k x = map (fun i => if i =? k then x else f i) (seq 0 n).
Proof.
  intros H. apply nth_error_ext. intros i. rewrite lset_nth_error, map_length, seq_length. destruct (Nat.lt_ge_cases i n) as [Hi|Hi].
  - rewrite !map_seq_nth_error by exact Hi. destruct (i =? k) eqn:E; [now rewrite (proj2 (Nat.ltb_lt k n) H)|reflexivity].
  - rewrite !(proj2 (nth_error_None _ _)) by (rewrite map_length, seq_length; lia). destruct (Nat.eqb_spec i k); [lia|reflexivity].
Qed.
Lemma sum_zsum {A} (h : A -> Z) (d : A) l : sum (length l) (fun i => h (nth i l d)) = zsum h l.
Proof. induction l as [|a l IH]; [reflexivity|]. cbn [length]. rewrite sum_first, zsum_cons, <- IH. reflexivity. Qed.
Lemma faces_shape l : forall s pre, Forall (fun sf => exists x y z q r, snd sf = q ++ FVertex z :: r /\ pre ++ l = q ++ FEdge x y :: r /\ (z = x \/ z = y)) (faces s pre l).
Proof.
  induction l as [|[x y|x] l IH]; intros s pre; cbn [faces]; [constructor| |].
  - constructor; [exists x, y, x, pre, l; auto|]. constructor; [exists x, y, y, pre, l; auto|]. specialize (IH (negb s) (pre ++ [FEdge x y])). rewrite <- app_assoc in IH. exact IH.
  - specialize (IH s (pre ++ [FVertex x])). rewrite <- app_assoc in IH. exact IH.
Qed.

Section BM.
  Variables (g : rawg) (n : nat) (c : cplx).
  Hypothesis HB : forall x y, edge g x y = true -> x < y -> y < g_n_vertices g.
  Hypothesis HE : enumerates g n c.
  Hypothesis Hne : c_final c <> [].
  Definition cellof (i : nat) : list factor := match get_cell_from_idx c i with Some (Some l) => l | _ => [] end.
  Definition dimo (i : nat) : nat := match dim_of c i with Some d => d | None => 0 end.
  Definition Lk (k : nat) : list nat := filter (fun i => dimo i =? k) (c_final c).
  Definition rk (k : nat) : nat := length (Lk k).
  Notation F := (c_final c).

  Lemma F_NoDup : NoDup F. Proof. apply HE. Qed.
  Lemma Lk_NoDup k : NoDup (Lk k). Proof. apply NoDup_filter, F_NoDup. Qed.
  Lemma F_cell i : In i F -> get_cell_from_idx c i = Some (Some (cellof i)) /\ configuration g n (cellof i) /\ listed (cellof i) /\ dim_of c i = Some (dimo i) /\ dimo i = dimension (cellof i).
  Proof.
    intros Hi. destruct HE as (_ & H & _). destruct (H i Hi) as (l & E & C & L & D). unfold cellof, dimo. rewrite E, D. auto.
  Qed.
  Lemma F_dim i : In i F -> dimo i <= c_dim c.
  Proof. intros Hi. destruct (F_cell i Hi) as (_ & _ & _ & D & _). destruct HE as (_ & _ & _ & _ & _ & _ & H & _). now apply (H i). Qed.
  Lemma cell_inj i j : In i F -> In j F -> cellof i = cellof j -> i = j.
  Proof.
    intros Hi Hj E. destruct (F_cell i Hi) as (Ei & Ci & _). destruct (F_cell j Hj) as (Ej & Cj & _). destruct HE as (_ & _ & H & _). destruct (H (cellof i) Ci) as (k & l & _ & _ & _ & U).
    rewrite (U i (cellof i) Hi Ei (Permutation_refl _)). symmetry. apply (U j (cellof j) Hj Ej). now rewrite E.
  Qed.
  Lemma data_lt i d : dim_of c i = Some d -> i < length (c_data c).
  Proof. unfold dim_of. cbn [dim_up]. destruct (nth_error (c_data c) i) eqn:E; [|discriminate]. intros _. apply nth_error_Some. congruence. Qed.
  Lemma ranks_rk k : nth_error (c_ranks c) k = if k <=? n then Some (rk k) else None.
  Proof.
    destruct HE as (_ & _ & _ & _ & _ & H & _). rewrite H. destruct (k <=? n); [|reflexivity]. f_equal. unfold rk, Lk. f_equal. apply filter_ext_in. intros i Hi. destruct (F_cell i Hi) as (_ & _ & _ & D & _). now rewrite D.
  Qed.
  Lemma dim_le_n : c_dim c <= n.
  Proof. destruct HE as (_ & _ & _ & _ & _ & _ & _ & H). destruct (H Hne) as (i & Hi & D). destruct (F_cell i Hi) as (_ & (L & _) & _ & D' & E). rewrite D in D'. injection D' as D'. rewrite D', E, <- L. apply dimension_le. Qed.
  Lemma Lk_in k i : In i (Lk k) <-> In i F /\ dimo i = k.
  Proof. unfold Lk. rewrite filter_In, Nat.eqb_eq. tauto. Qed.

  (** The faces of a cell are cells. *)
  Lemma face_configuration l sf : configuration g n l -> In sf (faces true [] l) -> configuration g n (f_sort (snd sf)) /\ listed (f_sort (snd sf)) /\ S (dimension (f_sort (snd sf))) = dimension l.
  Proof.
    intros (L & CC & PD) H. pose proof (faces_shape l true []) as FS. rewrite Forall_forall in FS. destruct (FS sf H) as (x & y & z & q & r & E & El & Hz). cbn [app] in El. rewrite E. clear FS H. subst l.
    assert (PF : pd (q ++ FVertex z :: r)).
    { apply (pd_perm (FVertex z :: q ++ r)); [apply Permutation_middle|]. apply (pd_perm _ (FEdge x y :: q ++ r)) in PD; [|symmetry; apply Permutation_middle]. apply pd_cons in PD. apply pd_cons. split; [|apply PD].
      eapply Forall_impl; [|apply PD]. intros f D v [<-|[]]. apply D. cbn. destruct Hz as [-> | ->]; auto. }
    pose proof (f_sort_perm (q ++ FVertex z :: r)) as P. repeat split.
    - rewrite (Permutation_length P), <- L, !app_length. reflexivity.
    - apply (Permutation_Forall (Permutation_sym P)). rewrite Forall_app in *. destruct CC as [C1 C2]. inversion C2 as [|? ? C3 C4]; subst. cbn [closed_cell] in C3. split; [exact C1|]. constructor; [|exact C4]. cbn [closed_cell]. pose proof (HB x y (proj2 C3) (proj1 C3)). lia.
    - now apply f_sort_pd.
    - now apply f_sort_listed.
    - rewrite (dimension_perm _ _ P), !dimension_app. change (dimension (FVertex z :: r)) with (dimension r). change (dimension (FEdge x y :: r)) with (S (dimension r)). lia.
  Qed.
  Lemma rk_pos k : k <= c_dim c -> 0 < rk k.
  Proof.
    intros H. assert (G : forall d, d <= c_dim c -> exists i, In i F /\ dimo i = c_dim c - d).
    { induction d as [|d IH]; intros Hd.
      - destruct HE as (_ & _ & _ & _ & _ & _ & _ & T). destruct (T Hne) as (i & Hi & D). exists i. split; [exact Hi|]. unfold dimo. rewrite D. lia.
      - destruct IH as (i & Hi & D); [lia|]. destruct (F_cell i Hi) as (_ & CF & _ & _ & DD).
        assert (NE : faces true [] (cellof i) <> []). { assert (K : dimension (cellof i) <> 0) by lia. revert K. clear. generalize true (@nil factor). induction (cellof i) as [|[x y|x] l IH]; intros s pre K; [exfalso; now apply K|discriminate|]. cbn [faces]. now apply IH. }
        destruct (faces true [] (cellof i)) as [|sf r] eqn:EF; [congruence|]. destruct (face_configuration (cellof i) sf CF) as (C1 & C2 & C3); [rewrite EF; now left|].
        destruct HE as (_ & _ & _ & IX & _). destruct (IX _ C1 C2) as (j & _ & Ej). assert (Hj : In j F). { unfold get_cell_from_idx in Ej. destruct (existsb (Nat.eqb j) F) eqn:X; [|discriminate]. apply existsb_exists in X. destruct X as (j' & Hj' & X). apply Nat.eqb_eq in X. now subst j'. }
        exists j. split; [exact Hj|]. destruct (F_cell j Hj) as (Ej' & _ & _ & _ & DJ). rewrite Ej in Ej'. injection Ej' as Ej'. rewrite DJ, <- Ej'. lia. }
    destruct (G (c_dim c - k)) as (i & Hi & D); [lia|]. unfold rk. assert (In i (Lk k)) by (apply Lk_in; split; [exact Hi|lia]). destruct (Lk k); [destruct H0|cbn; lia].
  Qed.

  (** Numbers. *)
  Definition num_ok (num : list nat) (P : list nat) : Prop := forall i, In i P -> exists p, nth_error num i = Some p /\ nth_error (filter (fun j => dimo j =? dimo i) P) p = Some i.
  Lemma numbering_spec : exists num, numbering c = Some num /\ num_ok num F.
  Proof.
    unfold numbering.
    destruct (foldM_list (number_step c) (fun P st => length (fst st) = length (c_data c) /\ num_ok (fst st) P /\ forall k, k <= c_dim c -> nth_error (snd st) k = Some (length (filter (fun j => dimo j =? k) P)))
      F (repeat 0 (length (c_data c)), repeat 0 (c_dim c + 1))) as (st & E & _ & H & _).
    - cbn [fst snd]. split; [apply repeat_length|]. split; [intros i []|]. intros k Hk. cbn. rewrite nth_error_repeat; [reflexivity|lia].
    - intros P x Q [num cnt] EF (H1 & H2 & H3). cbn [fst snd] in *. assert (Hx : In x F) by (rewrite EF; apply in_or_app; right; now left).
      assert (Nx : ~ In x P). { pose proof F_NoDup as ND. rewrite EF in ND. apply NoDup_remove_2 in ND. intros K. apply ND, in_or_app. now left. }
      destruct (F_cell x Hx) as (_ & _ & _ & D & _). unfold number_step. rewrite D. cbn [obind fst snd]. rewrite H3 by now apply F_dim. cbn [obind]. pose proof (data_lt x _ D) as Hlt. rewrite (proj2 (Nat.ltb_lt _ _)) by lia.
      eexists. split; [reflexivity|]. cbn [fst snd]. split; [now rewrite lset_length|]. split.
      + intros i Hi. apply in_app_or in Hi. destruct Hi as [Hi|[<-|[]]].
        * destruct (H2 i Hi) as (p & A & B). exists p. rewrite lset_nth_error. destruct (Nat.eqb_spec i x) as [->|]; [contradiction|]. split; [exact A|]. rewrite filter_app. rewrite nth_error_app1; [exact B|]. apply nth_error_Some. congruence.
        * eexists. rewrite lset_nth_error, Nat.eqb_refl, H1, (proj2 (Nat.ltb_lt _ _)) by exact Hlt. split; [reflexivity|]. rewrite filter_app. cbn [filter]. rewrite Nat.eqb_refl. rewrite nth_error_app2, Nat.sub_diag by lia. reflexivity.
      + intros k Hk. rewrite lset_nth_error. assert (LC : dimo x < length cnt) by (apply nth_error_Some; rewrite (H3 (dimo x)) by (now apply F_dim); discriminate). rewrite (proj2 (Nat.ltb_lt _ _)) by exact LC. rewrite filter_app, app_length. cbn [filter]. rewrite (Nat.eqb_sym (dimo x) k).
        destruct (Nat.eqb_spec k (dimo x)) as [->|]; cbn [length]; [reflexivity|]. rewrite Nat.add_0_r. now apply H3.
    - rewrite E. exists (fst st). split; [reflexivity|exact H].
  Qed.

  (** Matrices. *)
  Definition rows (k : nat) : nat := match k with O => 1 | S k' => rk k' end.
  Definition mats (G : nat -> nat -> nat -> Z) : list (mat Z) := map (fun k => mk (rows k) (rk k) (G k)) (seq 0 (c_dim c + 1)).
  Lemma zero_maps_spec : zero_maps c = Some (mats (fun _ _ _ => 0%Z)).
  Proof.
    unfold zero_maps. rewrite ranks_rk. cbn [Nat.leb obind]. rewrite mzero_mk by (lia || (apply rk_pos; lia)). cbn [obind].
    rewrite (omapM_some _ (fun k => mk (rows k) (rk k) (fun _ _ => 0%Z))).
    - cbn [obind]. unfold mats. replace (c_dim c + 1) with (S (c_dim c)) by lia. reflexivity.
    - intros k Hk. apply in_seq in Hk. pose proof dim_le_n. rewrite !ranks_rk. rewrite !(proj2 (Nat.leb_le _ _)) by lia. cbn [obind]. rewrite mzero_mk by (apply rk_pos; lia). destruct k; [lia|]. cbn [rows]. now replace (S k - 1) with k by lia.
  Qed.
  Variable num : list nat.
  Hypothesis Hnum : num_ok num F.
  Definition nm (i : nat) : nat := nth i num 0.
  Lemma nm_spec i : In i F -> nth_error num i = Some (nm i) /\ nth_error (Lk (dimo i)) (nm i) = Some i.
  Proof. intros Hi. destruct (Hnum i Hi) as (p & A & B). assert (nm i = p) by (unfold nm; now apply nth_error_nth). subst p. auto. Qed.
  Lemma nm_lt i : In i F -> nm i < rk (dimo i).
  Proof. intros Hi. apply nth_error_Some. destruct (nm_spec i Hi) as [_ ->]. discriminate. Qed.
  Lemma nm_nth k p : p < rk k -> nm (nth p (Lk k) 0) = p /\ In (nth p (Lk k) 0) F /\ dimo (nth p (Lk k) 0) = k.
  Proof.
    intros Hp. pose proof (nth_In (Lk k) 0 Hp) as Hi. apply Lk_in in Hi. destruct Hi as [Hi D]. split; [|auto]. destruct (nm_spec _ Hi) as [_ B]. rewrite D in B.
    apply (proj1 (NoDup_nth_error (Lk k)) (Lk_NoDup k)); [apply nth_error_Some; congruence|]. rewrite B. symmetry. now apply nth_error_nth'.
  Qed.
  Lemma nm_inj i j : In i F -> In j F -> dimo i = dimo j -> nm i = nm j -> i = j.
  Proof. intros Hi Hj D E. destruct (nm_spec i Hi) as [_ A]. destruct (nm_spec j Hj) as [_ B]. rewrite D, E in A. congruence. Qed.

  Definition upd (G : nat -> nat -> nat -> Z) d r k z : nat -> nat -> nat -> Z := fun d' r' k' => if (d' =? d) && ((r' =? r) && (k' =? k)) then z else G d' r' k'.
  Lemma add_face_spec i s b G : In i F -> In b F -> S (dimo b) = dimo i ->
    exists G', add_face num i (dimo i) (mats G) (s, b) = Some (mats G') /\ forall d r k, G' d r k = if (d =? dimo i) && ((r =? nm b) && (k =? nm i)) then (G d r k + sgn s)%Z else G d r k.
  Proof.
    intros Hi Hb D. exists (upd G (dimo i) (nm b) (nm i) (G (dimo i) (nm b) (nm i) + sgn s)%Z). split.
    - unfold add_face. cbn [fst snd]. rewrite (proj1 (nm_spec b Hb)), (proj1 (nm_spec i Hi)). cbn [obind]. unfold mats. pose proof (F_dim i Hi). rewrite map_seq_nth_error by lia. cbn [obind].
      pose proof (nm_lt i Hi). pose proof (nm_lt b Hb). assert (ER : rows (dimo i) = rk (dimo b)) by (rewrite <- D; reflexivity).
      rewrite mget_in by lia. cbn [obind]. rewrite mset_mk by lia. cbn [obind]. rewrite lset_map_seq by lia. f_equal. apply map_ext. intros d. unfold upd. destruct (Nat.eqb_spec d (dimo i)) as [->|]; [|reflexivity]. cbn [andb].
      apply mk_ext. intros p q _ _. destruct ((p =? nm b) && (q =? nm i)); [|reflexivity]. destruct s; reflexivity.
    - intros d r k. unfold upd. destruct ((d =? dimo i) && ((r =? nm b) && (k =? nm i))) eqn:X; [|reflexivity]. replace d with (dimo i) by lia. replace r with (nm b) by lia. replace k with (nm i) by lia. reflexivity.
  Qed.
  Lemma add_faces_spec i bs : In i F -> Forall (fun sb => In (snd sb) F /\ S (dimo (snd sb)) = dimo i) bs -> forall G,
    exists G', foldM (add_face num i (dimo i)) bs (mats G) = Some (mats G') /\
    forall d r k, G' d r k = if (d =? dimo i) && (k =? nm i) then (G d r k + zsum (fun sb => (sgn (fst sb) * if (nm (snd sb) =? r)%nat then 1 else 0)%Z) bs)%Z else G d r k.
  Proof.
    intros Hi H. induction H as [|[s b] bs [Hb D] H IH]; intros G.
    - exists G. split; [reflexivity|]. intros d r k. cbn. destruct ((d =? dimo i) && (k =? nm i)); lia.
    - destruct (add_face_spec i s b G Hi Hb D) as (G1 & E1 & H1). destruct (IH G1) as (G2 & E2 & H2). exists G2. cbn [foldM]. rewrite E1. cbn [obind]. split; [exact E2|].
      intros d r k. rewrite H2, H1, zsum_cons. cbn [fst snd]. rewrite (Nat.eqb_sym r (nm b)). destruct (d =? dimo i), (k =? nm i), (nm b =? r); cbn [andb]; destruct s; cbn [sgn]; lia.
  Qed.

  Lemma boundaries_spec i : In i F -> exists bs, get_boundaries_of c i = Some bs /\
    Forall2 (fun sf sb => fst sb = fst sf /\ In (snd sb) F /\ cellof (snd sb) = f_sort (snd sf) /\ S (dimo (snd sb)) = dimo i) (faces true [] (cellof i)) bs.
  Proof.
    intros Hi. destruct (F_cell i Hi) as (E & CF & L & D & DD). unfold get_boundaries_of. rewrite E. cbn [obind].
    assert (FC : forall sf, In sf (faces true [] (cellof i)) -> configuration g n (f_sort (snd sf)) /\ listed (f_sort (snd sf)) /\ S (dimension (f_sort (snd sf))) = dimension (cellof i)) by (intros sf; now apply face_configuration).
    induction (faces true [] (cellof i)) as [|sf l IH]; [exists []; split; [reflexivity|constructor]|]. destruct IH as (bs & EB & HB2); [intros; apply FC; now right|].
    destruct (FC sf (or_introl eq_refl)) as (C1 & C2 & C3). destruct HE as (_ & _ & _ & IX & _). destruct (IX _ C1 C2) as (j & EJ & Ej). cbn [omapM]. rewrite EJ. cbn [obind]. rewrite EB. cbn [obind]. eexists. split; [reflexivity|]. constructor; [|exact HB2]. cbn [fst snd].
    assert (Hj : In j F). { unfold get_cell_from_idx in Ej. destruct (existsb (Nat.eqb j) F) eqn:X; [|discriminate]. apply existsb_exists in X. destruct X as (j' & Hj' & X). apply Nat.eqb_eq in X. now subst j'. }
    destruct (F_cell j Hj) as (Ej' & _ & _ & _ & DJ). rewrite Ej in Ej'. injection Ej' as Ej'. split; [reflexivity|]. split; [exact Hj|]. split; [now rewrite <- Ej'|]. rewrite DJ, <- Ej', DD. exact C3.
  Qed.
  Definition entry (d r k : nat) : Z := match d with O => 0%Z | S d' => Bd (dirac (cellof (nth r (Lk d') 0))) (cellof (nth k (Lk d) 0)) end.
  Lemma add_cell_spec i G : In i F -> 0 < dimo i -> (forall r, r < rows (dimo i) -> G (dimo i) r (nm i) = 0%Z) ->
    exists G', add_cell c num (mats G) i = Some (mats G') /\ forall d r k, r < rows d -> k < rk d -> G' d r k = if (d =? dimo i) && (k =? nm i) then entry d r k else G d r k.
  Proof.
    intros Hi Hd HG. destruct (boundaries_spec i Hi) as (bs & EB & FB). destruct (F_cell i Hi) as (_ & _ & _ & D & _). unfold add_cell. rewrite EB, D. cbn [obind].
    destruct (add_faces_spec i bs Hi) with (G := G) as (G' & E' & H').
    { clear -FB. induction FB as [|sf sb l l' (_ & A & _ & B) FB IH]; constructor; auto. }
    exists G'. split; [exact E'|]. intros d r k Hr Hk. rewrite H'. destruct (Nat.eqb_spec d (dimo i)) as [->|]; [|reflexivity]. destruct (Nat.eqb_spec k (nm i)) as [->|]; [|reflexivity]. cbn [andb].
    destruct (dimo i) as [|d'] eqn:Ed; [lia|]. rewrite HG by exact Hr. rewrite Z.add_0_l. unfold entry. destruct (nm_spec i Hi) as [_ Ni]. rewrite Ed in Ni. rewrite (nth_error_nth _ _ 0 Ni). unfold Bd, ev.
    cbn [rows] in Hr. clear -FB Hr Hnum HE. destruct (nm_nth d' r Hr) as (N1 & N2 & N3). set (q := nth r (Lk d') 0) in *. induction FB as [|sf sb l l' (A & B & C & DD) FB IH]; [reflexivity|]. rewrite !zsum_cons, IH, A, <- C. f_equal. f_equal. unfold dirac.
    destruct (Nat.eqb_spec (nm (snd sb)) r) as [e|ne].
    - assert (snd sb = q) by (apply nm_inj; [exact B|exact N2|lia|lia]). rewrite H. destruct (list_eq_dec f_dec (cellof q) (cellof q)); congruence.
    - destruct (list_eq_dec f_dec (cellof (snd sb)) (cellof q)) as [e|]; [|reflexivity]. exfalso. apply ne. apply cell_inj in e; [|exact B|exact N2]. now rewrite e.
  Qed.
  Theorem add_cells_spec P : (forall i, In i P <-> In i F /\ 0 < dimo i) -> NoDup P -> exists G, foldM (add_cell c num) P (mats (fun _ _ _ => 0%Z)) = Some (mats G) /\ forall d r k, r < rows d -> k < rk d -> G d r k = entry d r k.
  Proof.
    intros HP ND.
    destruct (foldM_list (add_cell c num) (fun P0 ms => exists G, ms = mats G /\ (forall d r k, r < rows d -> k < rk d -> G d r k = if in_dec Nat.eq_dec (nth k (Lk d) 0) P0 then entry d r k else 0%Z)) P (mats (fun _ _ _ => 0%Z))) as (ms & E & G & -> & HG).
    - exists (fun _ _ _ => 0%Z). split; [reflexivity|]. intros d r k _ _. destruct (in_dec _ _ _) as [[]|]; reflexivity.
    - intros P0 i Q ms EP (G & -> & H1). assert (Hi : In i P) by (rewrite EP; apply in_or_app; right; now left). assert (Ni : ~ In i P0). { rewrite EP in ND. apply NoDup_remove_2 in ND. intros K. apply ND, in_or_app. now left. }
      pose proof (proj1 (HP i) Hi) as [Fi Di]. pose proof (nth_error_nth _ _ 0 (proj2 (nm_spec i Fi))) as Ei.
      destruct (add_cell_spec i G Fi Di) as (G' & E' & H').
      { intros r Hr. rewrite H1; [|exact Hr|now apply nm_lt]. rewrite Ei. destruct (in_dec _ _ _); [contradiction|reflexivity]. }
      exists (mats G'). split; [exact E'|]. exists G'. split; [reflexivity|]. intros d r k Hr Hk. rewrite H' by assumption. rewrite H1 by assumption. destruct (nm_nth d k Hk) as (N1 & N2 & N3). set (q := nth k (Lk d) 0) in *.
      destruct ((d =? dimo i) && (k =? nm i)) eqn:X.
      + assert (q = i). { assert (Xd : d = dimo i) by lia. assert (Xk : k = nm i) by lia. unfold q. rewrite Xd, Xk. exact Ei. } destruct (in_dec Nat.eq_dec q (P0 ++ [i])) as [|Nn]; [reflexivity|]. exfalso. apply Nn, in_or_app. right. now left.
      + assert (q <> i) by (intros K; rewrite K in N1, N3; rewrite N1, N3, !Nat.eqb_refl in X; discriminate).
        destruct (in_dec Nat.eq_dec q P0) as [a|a], (in_dec Nat.eq_dec q (P0 ++ [i])) as [b|b]; try reflexivity; exfalso; [apply b, in_or_app; now left|]. apply in_app_or in b. destruct b as [b|[b|[]]]; congruence.
    - exists G. split; [exact E|]. intros d r k Hr Hk. rewrite HG by assumption. destruct (in_dec _ _ _) as [|Nn]; [reflexivity|]. destruct d as [|d]; [reflexivity|]. exfalso. apply Nn, HP. destruct (nm_nth (S d) k Hk) as (_ & A & B). split; [exact A|lia].
  Qed.
End BM.

Theorem boundary_map_spec g n c : (forall x y, edge g x y = true -> x < y -> y < g_n_vertices g) -> enumerates g n c -> c_final c <> [] ->
  boundary_map c = Some (combine (mats c (entry c)) (repeat [] (c_dim c + 1))).
Proof.
  intros HB HE Hne. unfold boundary_map. destruct (numbering_spec g n c HB HE) as (num & En & Hn). rewrite En. cbn [obind]. rewrite (zero_maps_spec g n c HB HE Hne). cbn [obind].
  rewrite (filterM_filter _ (fun i => 0 <? dimo c i)). 2: { intros i Hi. destruct (F_cell g n c HE i Hi) as (_ & _ & _ & D & _). now rewrite D. } cbn [obind].
  destruct (add_cells_spec g n c HB HE num Hn (filter (fun i => 0 <? dimo c i) (c_final c))) as (G & E & HG).
  - intros i. rewrite filter_In, Nat.ltb_lt. tauto.
  - apply NoDup_filter. apply HE.
  - rewrite E. cbn [obind]. f_equal. f_equal. unfold mats. apply map_ext. intros d. apply mk_ext. intros r k Hr Hk. now apply HG.
Qed.
(** Consecutive matrices multiply to zero. *)
Theorem entry_conforming g n c : (forall x y, edge g x y = true -> x < y -> y < g_n_vertices g) -> enumerates g n c -> c_final c <> [] -> conforming (mats c (entry c)).
Proof.
  intros HB HE Hne. unfold mats. split.
  - intros k d Hk. assert (k < c_dim c + 1) by (rewrite <- (seq_length (c_dim c + 1) 0), <- (map_length (fun k => mk (rows c k) (rk c k) (entry c k))); apply nth_error_Some; congruence).
    rewrite map_seq_nth_error in Hk by assumption. injection Hk as <-. split; [apply wf_mk|]. rewrite nr_mk, nc_mk. split; [|apply (rk_pos g n c HB HE Hne); lia]. destruct k; cbn [rows]; [lia|apply (rk_pos g n c HB HE Hne); lia].
  - intros k d e Hd He. assert (k + 1 < c_dim c + 1) by (rewrite <- (seq_length (c_dim c + 1) 0), <- (map_length (fun k => mk (rows c k) (rk c k) (entry c k))); apply nth_error_Some; congruence).
    rewrite map_seq_nth_error in Hd, He by lia. injection Hd as <-. injection He as <-. rewrite !nr_mk, !nc_mk. replace (k + 1) with (S k) by lia. cbn [rows]. split; [reflexivity|]. intros i j Hi Hj. unfold prod_entry.
    transitivity (sum (rk c k) (fun l => (entry c k i l * entry c (S k) l j)%Z)). { apply sum_extZ. intros l Hl. rewrite !ent_mk by (cbn [rows]; lia). reflexivity. }
    destruct k as [|k]; [transitivity (sum (rk c 0) (fun _ => 0%Z)); [apply sum_extZ; intros; reflexivity|]; clear; induction (rk c 0) as [|m IH]; [reflexivity|]; change (sum m (fun _ => 0%Z) + 0 = 0)%Z; rewrite IH; reflexivity|].
    cbn [rows] in Hi. unfold entry. set (ci := cellof c (nth i (Lk c k) 0)). set (cj := cellof c (nth j (Lk c (S (S k))) 0)).
    etransitivity; [exact (sum_zsum (fun q => Bd (dirac ci) (cellof c q) * Bd (dirac (cellof c q)) cj)%Z 0 (Lk c (S k)))|].
    assert (Hj' : In (nth j (Lk c (S (S k))) 0) (c_final c) /\ dimo c (nth j (Lk c (S (S k))) 0) = S (S k)) by (apply Lk_in, nth_In; exact Hj). destruct Hj' as [Fj Dj].
    destruct (F_cell g n c HE _ Fj) as (_ & Cj & Ljj & _ & DDj). fold cj in Cj, Ljj, DDj.
    rewrite <- (Bd_Bd (dirac ci) cj (proj2 (proj2 Cj)) Ljj). unfold Bd at 3, ev at 1.
    assert (EZ : forall l, zsum (fun q => Bd (dirac ci) (cellof c q) * Bd (dirac (cellof c q)) cj)%Z l = zsum (fun x => Bd (dirac ci) x * Bd (dirac x) cj)%Z (map (cellof c) l)). { induction l as [|q l IH]; [reflexivity|]. cbn [map]. now rewrite !zsum_cons, IH. }
    rewrite EZ. symmetry. apply (zsum_dirac (fun sf : bool * list factor => sgn (fst sf)) (fun sf => f_sort (snd sf)) (faces true [] cj) (Bd (dirac ci)) (map (cellof c) (Lk c (S k)))).
    + pose proof (Lk_NoDup g n c HE (S k)) as ND. pose proof (fun q H => proj1 (proj1 (Lk_in c (S k) q) H)) as Sub. revert ND Sub. generalize (Lk c (S k)). clear -HE. induction l as [|q l IH]; intros ND Sub; [constructor|]. inversion ND; subst. cbn [map]. constructor.
      * intros K. apply in_map_iff in K. destruct K as (q' & E & Hq'). apply (cell_inj g n c HE) in E; [subst; contradiction|apply Sub; now right|apply Sub; now left].
      * apply IH; [assumption|intros; apply Sub; now right].
    + intros sf Hsf. destruct (face_configuration g n c HB HE cj sf Cj Hsf) as (C1 & C2 & C3). pose proof HE as (_ & _ & _ & IX & _). destruct (IX _ C1 C2) as (q & _ & Eq).
      assert (Hq : In q (c_final c)). { unfold get_cell_from_idx in Eq. destruct (existsb (Nat.eqb q) (c_final c)) eqn:X; [|discriminate]. apply existsb_exists in X. destruct X as (q' & Hq' & X). apply Nat.eqb_eq in X. now subst q'. }
      destruct (F_cell g n c HE q Hq) as (Eq' & _ & _ & _ & DQ). rewrite Eq in Eq'. injection Eq' as Eq'. rewrite Eq'. apply in_map. apply Lk_in. split; [exact Hq|]. rewrite DQ, <- Eq'. lia.
Qed.
