(** C142: the homology of the boundary of a simplex is reported as that of a sphere. *)
From Coq Require Import List Arith ZArith Bool Lia ZifyBool ZifyNat Sorted.
From Verif Require Import PidModel LinModel LinSpec LinProofs3 MatModel MatSpec HomModel HomSpec HomProps SimpModel SimpSpec SimpProofs4 SimpProps CompSpec CompProps IsoSpec IsoProofs IsoProofs4 IsoProofs5 IsoProps ConeSpec ConeProofs ConeProps SphereProofs.
Import ListNotations.
Open Scope nat_scope.

(** The faces of the complex are the proper subsets of the simplex [s]. *)
Definition simplex_boundary {T} (s : list T) (hist : list (list T)) : Prop :=
  forall c, face_of hist c <-> incl c s /\ exists x, In x s /\ ~ In x c.

(** The surface of an (n+1)-simplex: free rank 1 in degree 0 and in degree n, nothing else, no torsion. *)
Theorem C142_sphere : forall T (eqb : T -> T -> bool) n s hist, (forall x y, eqb x y = true <-> x = y) -> 1 <= n -> NoDup s -> length s = n + 2 -> length s <= 64 ->
  valid_hist hist -> simplex_boundary s hist ->
  exists K bm, attach_all eqb hist = Some K /\ boundary_map K = Some bm /\ length bm = n + 1 /\ forall cmp max_dim, total_order cmp ->
    exists out, integral_homology cmp bm max_dim = Some out /\ reported_rank out 0 = 1 /\
      (match max_dim with None => True | Some m => n <= m end -> reported_rank out n = 1) /\
      (forall k, k <> 0 -> k <> n -> reported_rank out k = 0) /\ forall k, reported_divisors out k = [].
Proof.
  intros T eqb n s hist He Hn ND LS LS64 V SB.
  assert (DEC : forall u v : T, {u = v} + {u <> v}) by (intros u v; destruct (eqb u v) eqn:E; [left; now apply He|right; intros Q; apply He in Q; congruence]).
  assert (SUB : forall c, NoDup c -> (face_of hist c <-> incl c s /\ length c <= n + 1)).
  { intros c Nc. rewrite (SB c). split; intros (I & H); (split; [exact I|]).
    - destruct H as (x & Hx & Nx). assert (Q : length (x :: c) <= length s); [apply NoDup_incl_length; [now constructor|intros y [<-|Hy]; [exact Hx|now apply I]]|]. cbn in Q. lia.
    - destruct (Exists_dec (fun x => ~ In x c) s) as [E|E]; [intros x; destruct (in_dec DEC x c); tauto| |]; [apply Exists_exists in E; exact E|]. exfalso. assert (Q : incl s c). { intros x Hx. destruct (in_dec DEC x c) as [K|K]; [exact K|]. exfalso. apply E, Exists_exists. eauto. }
      pose proof (NoDup_incl_length ND Q). lia. }
  assert (FF : forall t, In t hist -> face_of hist t) by (intros t Ht; exists t; split; [exact Ht|apply incl_refl]).
  assert (VN : forall t, In t hist -> t <> [] /\ NoDup t) by (intros t Ht; unfold valid_hist in V; rewrite Forall_forall in V; now apply V).
  destruct s as [|a s]; [cbn in LS; lia|].
  assert (FA : face_of hist [a]) by (apply SUB; [constructor; [intros []|constructor]|]; split; [intros y [<-|[]]; now left|cbn; lia]).
  assert (V' : valid_hist ([a] :: hist)) by (constructor; [split; [discriminate|constructor; [intros []|constructor]]|exact V]).
  assert (F : forall t, In t hist -> face_of ([a] :: hist) t) by (intros t Ht; exists t; split; [now right|apply incl_refl]).
  assert (F' : forall t, In t ([a] :: hist) -> face_of hist t) by (intros t [<-|Ht]; [exact FA|now apply FF]).
  assert (FE : forall c, face_of ([a] :: hist) c <-> face_of hist c). { intros c. split; intros (t & Ht & I); [destruct (F' t Ht) as (t' & Ht' & I')|destruct (F t Ht) as (t' & Ht' & I')]; exists t'; (split; [exact Ht'|]); intros y Hy; apply I', I, Hy. }
  assert (Hd : has_dim hist n).
  { split; [|intros t Ht; destruct (proj1 (SUB t (proj2 (VN t Ht))) (FF t Ht)); lia]. assert (NS : NoDup s) by now inversion ND. cbn in LS.
    destruct (proj2 (SUB s NS)) as (t & Ht & I); [split; [intros y Hy; now right|lia]|]. exists t. split; [exact Ht|]. pose proof (NoDup_incl_length NS I). destruct (proj1 (SUB t (proj2 (VN t Ht))) (FF t Ht)). lia. }
  assert (SI : simplicial_iso (fun x => x) (fun x => x) hist ([a] :: hist)) by (split; [reflexivity|]; split; [reflexivity|]; split; intros t Ht; rewrite map_id; auto).
  assert (MEM : forall x, In x (skeleton eqb hist) <-> In x (a :: s)).
  { intros x. rewrite (proj2 (skeleton_spec eqb hist He)). split; [intros (t & Ht & Hx); now apply (proj1 (SB t) (FF t Ht))|]. intros Hx. assert (FX : face_of hist [x]) by (apply SUB; [constructor; [intros []|constructor]|]; split; [intros y [<-|[]]; exact Hx|cbn; lia]). destruct FX as (t & Ht & I). exists t. split; [exact Ht|]. apply I. now left. }
  assert (LK : length (skeleton eqb hist) = n + 2). { rewrite <- LS. apply Nat.le_antisymm; apply NoDup_incl_length; [apply skeleton_spec, He|intros x Hx; now apply MEM|exact ND|intros x Hx; now apply MEM]. }
  destruct (C140_isomorphic T T eqb eqb _ _ hist ([a] :: hist) n He He V V' ltac:(lia) Hd SI) as (Hd' & LE & K & bm & K' & bm' & EK & EB & EK' & EB' & HH).
  assert (L' : length (skeleton eqb ([a] :: hist)) <= 64) by lia.
  destruct (facts eqb ([a] :: hist) n He V' L' Hd') as (K2 & bm2 & EK2 & EB2 & LB & CD & HC & H0 & HE). rewrite EK' in EK2. injection EK2 as <-. rewrite EB' in EB2. injection EB2 as <-.
  destruct (facts eqb hist n He V ltac:(lia) Hd) as (K3 & bm3 & EK3 & EB3 & LB3 & _). rewrite EK in EK3. injection EK3 as <-. rewrite EB in EB3. injection EB3 as <-.
  destruct (skeleton_head eqb a hist) as (R & HS). assert (LR : length R = S n) by (rewrite HS in LE; cbn in LE; lia).
  assert (MEM' : forall x, In x (a :: R) -> In x (a :: s)).
  { intros x Hx. rewrite <- HS in Hx. apply (proj2 (skeleton_spec eqb ([a] :: hist) He)) in Hx. destruct Hx as (t & Ht & Hx). apply MEM, (proj2 (skeleton_spec eqb hist He)). destruct (F' t Ht) as (t' & Ht' & I). exists t'. split; [exact Ht'|now apply I]. }
  assert (NR : NoDup (a :: R)) by (rewrite <- HS; apply skeleton_spec, He).
  assert (HCELL : forall k c, is_cell eqb ([a] :: hist) k c <-> subseq c (a :: R) /\ length c = S k /\ k <= n).
  { intros k c. unfold is_cell. rewrite HS. split; intros (S1 & L1 & H); (split; [exact S1|]; split; [exact L1|]).
    - assert (Q : face_of hist c) by now apply FE. apply (SUB c (subseq_NoDup _ _ S1 NR)) in Q. lia.
    - assert (Q : face_of ([a] :: hist) c); [|exact Q]. apply FE, (SUB c (subseq_NoDup _ _ S1 NR)). split; [|lia]. intros y Hy. apply MEM', (subseq_incl _ _ S1), Hy. }
  exists K, bm. split; [exact EK|]. split; [exact EB|]. split; [lia|]. intros cmp max_dim Ht. destruct (HH cmp cmp max_dim Ht Ht) as (out & out' & EO & EO' & SM). exists out. split; [exact EO|].
  destruct (C140_canonical _ cmp bm' max_dim Ht CD) as (out2 & EO2 & CAN). rewrite EO' in EO2. injection EO2 as <-.
  assert (NC : n_components eqb ([a] :: hist) 1).
  { exists (fun _ => 0). split; [|split; [lia|]].
    - intros x y Hx Hy. split; [intros _|reflexivity]. destruct (DEC x y) as [->|Nxy]; [apply j_refl|]. rewrite HS in Hx, Hy.
      assert (Q : face_of ([a] :: hist) [x; y]). { apply FE, SUB; [constructor; [intros [E|[]]; congruence|constructor; [intros []|constructor]]|]. split; [|cbn; lia]. intros z [<-|[<-|[]]]; now apply MEM'. }
      destruct Q as (t & Ht' & I). apply (j_step _ x x y t); [apply j_refl|exact Ht'|apply I; now left|apply I; right; now left].
    - intros k Hk. exists a. split; [rewrite HS; now left|lia]. }
  destruct (C110_components_partial T eqb ([a] :: hist) n 1 He V' L' Hd' NC) as (K4 & bm4 & d0 & EK4 & EB4 & Ed0 & Q0 & _). rewrite EK' in EK4. injection EK4 as <-. rewrite EB' in EB4. injection EB4 as <-.
  destruct (CAN 0 d0 1 [] Ed0) as (R0 & D0); [destruct max_dim; [lia|exact I]|constructor|constructor|exact Q0|].
  assert (TOP : match max_dim with None => True | Some m => n <= m end -> reported_rank out' n = 1 /\ reported_divisors out' n = []).
  { intros Hm. destruct (HC n (le_n n)) as (D & bs & ED & _). assert (ED' : nth_error (map fst bm') n = Some D) by (rewrite nth_error_map, ED; reflexivity).
    destruct (CAN n D 1 [] ED' Hm) as (A & B); [constructor|constructor| |split; now symmetry]. exact (sphere_top eqb a ([a] :: hist) R n He V' L' Hd' HS Hn LR HCELL bm' LB CD HC HE D bs ED). }
  assert (P : forall k, k <> 0 -> k <> n \/ ~ (match max_dim with None => True | Some m => n <= m end) -> reported_rank out' k = 0 /\ reported_divisors out' k = []).
  { intros k Hk Hkn. destruct (nth_error out' k) as [m|] eqn:Eo; [|unfold reported_rank, reported_divisors; rewrite Eo; split; reflexivity].
    destruct (C43_homology_partial _ cmp bm' max_dim Ht CD) as (out2 & EO2 & LO & HO & _). rewrite EO' in EO2. injection EO2 as <-. destruct m as [[h cyc] bnd]. destruct (HO k h cyc bnd Eo) as (D & ED & _).
    assert (Ko : k < length out') by (apply nth_error_Some; congruence).
    assert (Hm : match max_dim with None => True | Some m => k <= m end) by (destruct max_dim; [lia|exact I]).
    assert (Hk' : k < n). { assert (k < S n) by (destruct max_dim; lia). destruct Hkn as [N|N]; [lia|]. destruct max_dim as [m|]; [|now destruct N]. cbn in *. lia. }
    destruct (CAN k D 0 [] ED Hm) as (A & B); [constructor|constructor| |split; [now symmetry|now symmetry]].
    apply trivial_quotient; [|right; exists (repeat 0%Z (nc D)); split; [apply repeat_length|]; intros i Hi; unfold apply_at; apply IsoProofs2.zsum_zero; intros j Hj; rewrite nth_repeat; lia].
    intros x Hx. apply (cone_exact eqb a ([a] :: hist) R n He V' L' Hd' HS n (up_cell eqb a ([a] :: hist) R n He V' L' Hd' HS Hn LR HCELL bm' LB CD HC HE) bm' LB CD HC HE k D x ltac:(lia) Hk' ED Hx). }
  split; [now rewrite (proj1 (SM 0))|]. split; [intros Hm; rewrite (proj1 (SM n)); now apply TOP|]. split.
  - intros k Hk Hkn. rewrite (proj1 (SM k)). apply P; [exact Hk|now left].
  - intros k. rewrite (proj2 (SM k)). destruct (Nat.eq_dec k 0) as [->|N0]; [now symmetry|]. destruct (Nat.eq_dec k n) as [->|Nn]; [|apply P; [exact N0|now left]].
    assert (DM : {match max_dim with None => True | Some m => n <= m end} + {~ match max_dim with None => True | Some m => n <= m end}) by (destruct max_dim as [m|]; [apply le_dec|left; exact I]).
    destruct DM as [DM|DM]; [now apply TOP|apply P; [exact N0|now right]].
Qed.

(** The facets of a simplex, attached one after the other, generate its boundary. *)
Definition facets {T} (s : list T) : list (list T) := map (fun i => removed i s) (seq 0 (length s)).
Theorem C142_facets : forall T (eqb : T -> T -> bool) (s : list T), (forall x y, eqb x y = true <-> x = y) -> 2 <= length s -> NoDup s -> valid_hist (facets s) /\ simplex_boundary s (facets s).
Proof.
  intros T eqb s He L ND. assert (DEC : forall u v : T, {u = v} + {u <> v}) by (intros u v; destruct (eqb u v) eqn:E; [left; now apply He|right; intros Q; apply He in Q; congruence]).
  assert (SPL : forall i, i < length s -> exists A x B, s = A ++ x :: B /\ length A = i /\ removed i s = A ++ B).
  { intros i Hi. destruct (nth_error s i) as [x|] eqn:Ex; [|apply nth_error_None in Ex; lia]. destruct (nth_error_split _ _ Ex) as (A & B & E & LA). exists A, x, B. split; [exact E|]. split; [exact LA|]. rewrite E, <- LA. apply IsoProofs3.removed_split. }
  split.
  - apply Forall_forall. intros t Ht. apply in_map_iff in Ht. destruct Ht as (i & <- & Hi). apply in_seq in Hi. destruct (SPL i ltac:(lia)) as (A & x & B & E & LA & ->). rewrite E in ND, L. rewrite app_length in L. cbn in L. apply NoDup_remove in ND. split; [|apply ND]. intros Q. apply (f_equal (@length T)) in Q. rewrite app_length in Q. cbn in Q. lia.
  - intros c. split.
    + intros (t & Ht & I). apply in_map_iff in Ht. destruct Ht as (i & <- & Hi). apply in_seq in Hi. destruct (SPL i ltac:(lia)) as (A & x & B & E & LA & ER). rewrite ER in I. assert (ND' := ND). rewrite E in ND'. apply NoDup_remove in ND'. split.
      * intros y Hy. apply I in Hy. rewrite E. apply in_app_or in Hy. apply in_or_app. destruct Hy; [now left|right; now right].
      * exists x. split; [rewrite E; apply in_or_app; right; now left|]. intros Q. apply I in Q. now apply (proj2 ND').
    + intros (I & x & Hx & Nx). destruct (in_split _ _ Hx) as (A & B & E). exists (removed (length A) s). split.
      * unfold facets. apply in_map_iff. exists (length A). split; [reflexivity|]. apply in_seq. rewrite E, app_length. cbn. lia.
      * rewrite E, IsoProofs3.removed_split. intros y Hy. assert (Hy' := I y Hy). rewrite E in Hy'. apply in_app_or in Hy'. apply in_or_app. destruct Hy' as [K|[K|K]]; [now left|subst; contradiction|now right].
Qed.
Example C142_nontrivial : facets [5; 6; 7; 8] = [[6; 7; 8]; [5; 7; 8]; [5; 6; 8]; [5; 6; 7]] /\ valid_hist (facets [5; 6; 7; 8]) /\ simplex_boundary [5; 6; 7; 8] (facets [5; 6; 7; 8]).
Proof. split; [reflexivity|]. apply (C142_facets nat Nat.eqb); [apply Nat.eqb_eq|cbn; lia|]. repeat constructor; cbn; intuition discriminate. Qed.
Print Assumptions C142_sphere.
Print Assumptions C142_facets.
