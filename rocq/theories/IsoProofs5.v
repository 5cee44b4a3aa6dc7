(** Isomorphic histories of attached simplices: cells, dimensions and boundary matrices correspond. *)
From Coq Require Import List Arith ZArith Bool Lia ZifyBool ZifyNat Sorted Permutation.
From Verif Require Import PidModel LinModel LinSpec MatModel MatSpec MatProofs HomModel HomSpec HomProps SimpModel SimpSpec SimpProofs4 SimpProofs5 SimpProofs7 SimpProps CompProps LinProofs3 IsoSpec IsoProofs IsoProofs2 IsoProofs3 IsoProofs4.
Import ListNotations.
Open Scope nat_scope.

Lemma mget_ent_Z (M : mat Z) i j x : mget M i j = Some x -> ent M i j = x.
Proof. unfold mget, ent. destruct ((i <? nr M) && (j <? nc M)); [|discriminate]. destruct (nth_error (rws M) i) as [r|] eqn:E; [|discriminate]. cbn [obind]. intros E2. rewrite (nth_error_nth _ _ _ E). now apply nth_error_nth. Qed.

Lemma facts {T} (eqb : T -> T -> bool) hist d : (forall x y, eqb x y = true <-> x = y) -> valid_hist hist -> length (skeleton eqb hist) <= 64 -> has_dim hist d ->
  exists K bm, attach_all eqb hist = Some K /\ boundary_map K = Some bm /\ length bm = S d /\ complex_data bm /\
    (forall k, k <= d -> exists D bs, nth_error bm k = Some (D, bs) /\ lists_cells eqb hist k (map s_labels bs)) /\
    (forall D bs, nth_error bm 0 = Some (D, bs) -> nr D = 1 /\ forall i j, i < nr D -> j < nc D -> ent D i j = 0%Z) /\
    (forall k D0 rows D cols, nth_error bm k = Some (D0, rows) -> nth_error bm (k + 1) = Some (D, cols) -> nr D = length rows /\ nc D = length cols /\
      forall i j t s, nth_error rows i = Some t -> nth_error cols j = Some s -> face_sign (s_labels t) (s_labels s) (ent D i j)).
Proof.
  intros He HV HL Hd. destruct (C45_cells_partial T eqb hist d He HV HL Hd) as (K & bm & EK & _ & _ & _ & EB & LB & HC).
  destruct (C46_entries_partial T eqb hist d He HV HL Hd) as (K' & bm' & EK' & EB' & _ & (D0 & rows & E0 & EZ) & HE). rewrite EK in EK'. injection EK' as <-. rewrite EB in EB'. injection EB' as <-.
  destruct (C46_homology_input_partial T eqb hist d He HV HL Hd) as (K' & bm' & EK' & EB' & _ & CD & _). rewrite EK in EK'. injection EK' as <-. rewrite EB in EB'. injection EB' as <-.
  exists K, bm. split; [exact EK|]. split; [exact EB|]. split; [exact LB|]. split; [exact CD|]. split; [|split].
  - intros k Hk. destruct (HC k Hk) as (D & bs & E & L & _). eauto.
  - intros D bs E. rewrite E0 in E. injection E as <- <-. destruct CD as (_ & CF & F). rewrite Forall_forall in F. specialize (F _ (nth_error_In _ _ E0)). cbn in F.
    assert (HP : 0 < length rows). { destruct (proj1 CF 0 D0) as (_ & _ & HP); [rewrite nth_error_map, E0; reflexivity|lia]. }
    rewrite mzero_mk in EZ by lia. injection EZ as <-. split; [reflexivity|]. intros i j Hi Hj. cbn in Hi, Hj. now rewrite ent_mk.
  - intros k D1 rows1 D cols E1 E2. assert (k < d). { assert (k + 1 < length bm) by (apply nth_error_Some; congruence). lia. }
    destruct (HE k H) as (A1 & A2 & A3 & A4 & F1 & F2 & F3 & F4 & F5). rewrite E1 in F1. rewrite E2 in F2. injection F1 as <- <-. injection F2 as <- <-. split; [exact F3|]. split; [exact F4|].
    intros i j t s Et Es. destruct (F5 i j s t Et Es) as (e & Ee & Fe). now rewrite (mget_ent_Z _ _ _ _ Ee).
Qed.

Section Dim.
  Context {T U : Type} (f : T -> U) (g : U -> T) (hist : list (list T)) (hist' : list (list U)).
  Hypothesis HV : valid_hist hist.
  Hypothesis HG : forall s x, In s hist -> In x s -> g (f x) = x.
  Hypothesis HF : forall s, In s hist -> face_of hist' (map f s).
  Lemma dim_le s : In s hist -> exists s', In s' hist' /\ length s <= length s'.
  Proof using All.
    intros Hs. destruct (HF s Hs) as (s' & Hs' & I). exists s'. split; [exact Hs'|]. rewrite <- (map_length f). apply NoDup_incl_length; [|exact I].
    apply Forall_forall with (x := s) in HV; [|exact Hs]. destruct HV as [_ ND]. specialize (HG s). clear - ND HG Hs. induction ND as [|x l Hx ND IH]; cbn [map]; constructor.
    - intros K. apply in_map_iff in K. destruct K as (y & E & Hy). apply Hx. replace x with y; [exact Hy|]. rewrite <- (HG x Hs (or_introl eq_refl)), <- (HG y Hs (or_intror Hy)). now rewrite E.
    - (* the tail *) clear - ND HG Hs Hx. assert (G : forall z, In z l -> g (f z) = z) by (intros z Hz; apply HG; [exact Hs|now right]). clear HG Hs Hx. induction ND as [|x' l' Hx' ND IH]; cbn [map]; constructor.
      + intros K. apply in_map_iff in K. destruct K as (y & E & Hy). apply Hx'. replace x' with y; [exact Hy|]. rewrite <- (G x' (or_introl eq_refl)), <- (G y (or_intror Hy)). now rewrite E.
      + apply IH. intros z Hz. apply G. now right.
  Qed.
End Dim.
Lemma iso_dim {T U} (f : T -> U) (g : U -> T) hist hist' d : valid_hist hist -> valid_hist hist' -> simplicial_iso f g hist hist' -> has_dim hist d -> has_dim hist' d.
Proof.
  intros V V' (I1 & I2 & I3 & I4) ((s & Hs & Ls) & Hm). assert (M : forall s', In s' hist' -> length s' <= S d).
  { intros s' Hs'. destruct (dim_le g f hist' hist V' I2 I4 s' Hs') as (s2 & Hs2 & L). specialize (Hm s2 Hs2). lia. }
  split; [|exact M]. destruct (dim_le f g hist hist' V I1 I3 s Hs) as (s' & Hs' & L). exists s'. split; [exact Hs'|]. specialize (M s' Hs'). lia.
Qed.

Section Iso.
  Context {T U : Type} (eqT : T -> T -> bool) (eqU : U -> U -> bool) (f : T -> U) (g : U -> T) (hist : list (list T)) (hist' : list (list U)) (d : nat).
  Hypothesis HT : forall x y, eqT x y = true <-> x = y.
  Hypothesis HU : forall x y, eqU x y = true <-> x = y.
  Hypothesis V1 : valid_hist hist.
  Hypothesis V2 : valid_hist hist'.
  Hypothesis L1 : length (skeleton eqT hist) <= 64.
  Hypothesis L2 : length (skeleton eqU hist') <= 64.
  Hypothesis SI : simplicial_iso f g hist hist'.
  Hypothesis Hd : has_dim hist d.
  Variables (bm : list (mat Z * list (simplex T))) (bm' : list (mat Z * list (simplex U))).
  Hypothesis LB : length bm = S d.
  Hypothesis LB' : length bm' = S d.
  Hypothesis CD : complex_data bm.
  Hypothesis CD' : complex_data bm'.
  Hypothesis HC : forall k, k <= d -> exists D bs, nth_error bm k = Some (D, bs) /\ lists_cells eqT hist k (map s_labels bs).
  Hypothesis HC' : forall k, k <= d -> exists D bs, nth_error bm' k = Some (D, bs) /\ lists_cells eqU hist' k (map s_labels bs).
  Hypothesis H0 : forall D bs, nth_error bm 0 = Some (D, bs) -> nr D = 1 /\ forall i j, i < nr D -> j < nc D -> ent D i j = 0%Z.
  Hypothesis H0' : forall D bs, nth_error bm' 0 = Some (D, bs) -> nr D = 1 /\ forall i j, i < nr D -> j < nc D -> ent D i j = 0%Z.
  Hypothesis HE : forall k D0 rows D cols, nth_error bm k = Some (D0, rows) -> nth_error bm (k + 1) = Some (D, cols) -> nr D = length rows /\ nc D = length cols /\
      forall i j t s, nth_error rows i = Some t -> nth_error cols j = Some s -> face_sign (s_labels t) (s_labels s) (ent D i j).
  Hypothesis HE' : forall k D0 rows D cols, nth_error bm' k = Some (D0, rows) -> nth_error bm' (k + 1) = Some (D, cols) -> nr D = length rows /\ nc D = length cols /\
      forall i j t s, nth_error rows i = Some t -> nth_error cols j = Some s -> face_sign (s_labels t) (s_labels s) (ent D i j).
  Set Default Proof Using "All".
  Notation V := (skeleton eqT hist).
  Notation W := (skeleton eqU hist').
  Notation corr := (corr V W f g).
  Lemma NV : NoDup V. Proof. apply skeleton_nodup; assumption. Qed.
  Lemma NW : NoDup W. Proof. apply skeleton_nodup; assumption. Qed.
  Lemma Hf : forall x, In x V -> In (f x) W /\ g (f x) = x.
  Proof.
    destruct SI as (I1 & I2 & I3 & I4). intros x Hx. apply skeleton_iff in Hx; [|assumption..]. destruct Hx as (s & Hs & Hx). split; [|now apply (I1 s)].
    apply skeleton_iff; [assumption..|]. destruct (I3 s Hs) as (s' & Hs' & I). exists s'. split; [exact Hs'|]. apply I, in_map, Hx.
  Qed.
  Lemma Hg : forall y, In y W -> In (g y) V /\ f (g y) = y.
  Proof.
    destruct SI as (I1 & I2 & I3 & I4). intros x Hx. apply skeleton_iff in Hx; [|assumption..]. destruct Hx as (s & Hs & Hx). split; [|now apply (I2 s)].
    apply skeleton_iff; [assumption..|]. destruct (I4 s Hs) as (s' & Hs' & I). exists s'. split; [exact Hs'|]. apply I, in_map, Hx.
  Qed.
  Lemma corr_cell k c c' : corr c c' -> (is_cell eqT hist k c <-> is_cell eqU hist' k c').
  Proof.
    intros C. pose proof (corr_length eqT eqU HT HU V W f g NV NW Hf Hg c c' C) as L. destruct C as (A1 & A2 & A3 & A4). destruct SI as (I1 & I2 & I3 & I4). unfold is_cell. split; intros (_ & E & s & Hs & I).
    - split; [exact A2|]. split; [lia|]. destruct (I3 s Hs) as (s' & Hs' & I'). exists s'. split; [exact Hs'|]. intros y Hy. apply I'. destruct (Hg y (subseq_incl _ _ A2 y Hy)) as [_ <-]. apply in_map, I, A4, Hy.
    - split; [exact A1|]. split; [lia|]. destruct (I4 s Hs) as (s' & Hs' & I'). exists s'. split; [exact Hs'|]. intros y Hy. apply I'. destruct (Hf y (subseq_incl _ _ A1 y Hy)) as [_ <-]. apply in_map, I, A3, Hy.
  Qed.
  Definition cellmap (k : nat) (p q : nat -> nat) (e : nat -> Z) : Prop := forall D bs D' bs', nth_error bm k = Some (D, bs) -> nth_error bm' k = Some (D', bs') ->
    length bs = length bs' /\ signed_perm (length bs) p q e /\ forall j t t', nth_error bs j = Some t -> nth_error bs' (p j) = Some t' -> corr (s_labels t) (s_labels t') /\ e j = eps eqU W f (s_labels t).
  Lemma level k : k <= d -> exists p q e, cellmap k p q e.
  Proof.
    intros Hk. destruct (HC k Hk) as (D & bs & E & N & C). destruct (HC' k Hk) as (D' & bs' & E' & N' & C').
    destruct (list_bijection corr (map s_labels bs) (map s_labels bs') N N') as (LE & p & q & P & Q & R).
    - intros a b b'. apply (corr_fun eqT eqU HT HU V W f g NV NW Hf Hg).
    - intros a a' b. apply (corr_inj eqT eqU HT HU V W f g NV NW Hf Hg).
    - intros a Ha. apply C in Ha. destruct (corr_total eqT eqU HT HU V W f g NV NW Hf Hg a (proj1 Ha)) as (b & Hb). exists b. split; [|exact Hb]. apply C'. now apply (corr_cell k a b Hb).
    - intros b Hb. apply C' in Hb. destruct (corr_total eqU eqT HU HT W V g f NW NV Hg Hf b (proj1 Hb)) as (a & Ha). apply (corr_sym eqT eqU HT HU V W f g NV NW Hf Hg) in Ha. exists a. split; [|exact Ha]. apply C. now apply (corr_cell k a b Ha).
    - rewrite !map_length in *. exists p, q, (fun j => eps eqU W f (nth j (map s_labels bs) [])). intros D1 bs1 D1' bs1' F F'. rewrite E in F. rewrite E' in F'. injection F as <- <-. injection F' as <- <-.
      split; [exact LE|]. split; [split; [exact P|split; [exact Q|]]; intros j Hj; apply alt_sq|]. intros j t t' Et Et'. assert (Em : nth_error (map s_labels bs) j = Some (s_labels t)) by (rewrite nth_error_map, Et; reflexivity).
      split; [apply (R j); [exact Em|rewrite nth_error_map, Et'; reflexivity]|]. now rewrite (nth_error_nth _ _ _ Em).
  Qed.
  Lemma cols_len {X} (b : list (mat Z * list X)) k D bs : complex_data b -> nth_error b k = Some (D, bs) -> nc D = length bs.
  Proof. intros (_ & _ & F) E. rewrite Forall_forall in F. symmetry. exact (F _ (nth_error_In _ _ E)). Qed.
  Lemma pair_next k D0 rows D cols D0' rows' D' cols' p q e p2 q2 e2 : cellmap k p q e -> cellmap (k + 1) p2 q2 e2 ->
    nth_error bm k = Some (D0, rows) -> nth_error bm (k + 1) = Some (D, cols) -> nth_error bm' k = Some (D0', rows') -> nth_error bm' (k + 1) = Some (D', cols') -> pairing D D' p q e p2 q2 e2.
  Proof.
    intros M1 M2 E1 E2 E1' E2'. destruct (M1 _ _ _ _ E1 E1') as (A1 & A2 & A3). destruct (M2 _ _ _ _ E2 E2') as (B1 & B2 & B3). destruct (HE _ _ _ _ _ E1 E2) as (R & C & F). destruct (HE' _ _ _ _ _ E1' E2') as (R' & C' & F').
    split; rewrite ?R, ?C; try congruence; try assumption. intros i j Hi Hj.
    destruct (nth_error rows i) as [t|] eqn:Et; [|apply nth_error_None in Et; lia]. destruct (nth_error cols j) as [s|] eqn:Es; [|apply nth_error_None in Es; lia].
    destruct A2 as (P & _). destruct (P i Hi) as [Pi _]. destruct B2 as (P2 & _). destruct (P2 j Hj) as [Pj _].
    destruct (nth_error rows' (p i)) as [t'|] eqn:Et'; [|apply nth_error_None in Et'; lia]. destruct (nth_error cols' (p2 j)) as [s'|] eqn:Es'; [|apply nth_error_None in Es'; lia].
    destruct (A3 i t t' Et Et') as (Ct & ->). destruct (B3 j s s' Es Es') as (Cs & ->).
    apply (corr_sign eqT eqU HT HU V W f g NV NW Hf Hg (s_labels s) (s_labels s') (s_labels t) (s_labels t')); [exact Cs|exact Ct|now apply F|now apply F'].
  Qed.
  Lemma pair_zero D0 rows D0' rows' p q e : cellmap 0 p q e -> nth_error bm 0 = Some (D0, rows) -> nth_error bm' 0 = Some (D0', rows') -> pairing D0 D0' (fun i => i) (fun i => i) (fun _ => 1%Z) p q e.
  Proof.
    intros M E E'. destruct (M _ _ _ _ E E') as (A1 & A2 & A3). destruct (H0 _ _ E) as (R & Z0). destruct (H0' _ _ E') as (R' & Z0'). pose proof (cols_len _ _ _ _ CD E) as C. pose proof (cols_len _ _ _ _ CD' E') as C'.
    split; try congruence. { repeat split; auto. } intros i j Hi Hj. rewrite Z0 by assumption. rewrite Z0'; [lia|lia|]. rewrite C', <- A1. apply (proj1 A2). now rewrite <- C.
  Qed.
  Lemma iso_transport k D D' ms : nth_error (map fst bm) k = Some D -> nth_error (map fst bm') k = Some D' ->
    quotient_is (in_kernel D) (boundaries_of (map fst bm) k) ms -> quotient_is (in_kernel D') (boundaries_of (map fst bm') k) ms.
  Proof.
    intros ED ED'. assert (Hk : k <= d). { assert (k < length (map fst bm)) by (apply nth_error_Some; congruence). rewrite map_length in *. lia. }
    destruct (level k Hk) as (p2 & q2 & e2 & M2).
    assert (EX : forall i X b, nth_error (map fst bm) i = Some X -> nth_error bm i = Some b -> b = (X, snd b)). { intros i X [x y] A B. rewrite nth_error_map, B in A. cbn in A. now injection A as ->. }
    destruct (nth_error bm k) as [[X bs]|] eqn:EB; [|rewrite nth_error_map, EB in ED; discriminate]. rewrite nth_error_map, EB in ED. injection ED as <-. cbn [fst] in *.
    destruct (nth_error bm' k) as [[X' bs']|] eqn:EB'; [|rewrite nth_error_map, EB' in ED'; discriminate]. rewrite nth_error_map, EB' in ED'. injection ED' as <-. cbn [fst] in *. clear EX.
    assert (PP : exists p q e, pairing X X' p q e p2 q2 e2).
    { destruct k as [|k]. { exists (fun i => i), (fun i => i), (fun _ => 1%Z). now apply (pair_zero _ bs _ bs'). }
      destruct (level k ltac:(lia)) as (p & q & e & M). exists p, q, e. destruct (HC k ltac:(lia)) as (D0 & rows & E0 & _). destruct (HC' k ltac:(lia)) as (D0' & rows' & E0' & _). replace (S k) with (k + 1) in * by lia. exact (pair_next k D0 rows X bs D0' rows' X' bs' p q e p2 q2 e2 M M2 E0 EB E0' EB'). }
    destruct PP as (p & q & e & PP). apply (paired_transport _ _ k X X' p q e p2 q2 e2); [rewrite nth_error_map, EB; reflexivity|rewrite nth_error_map, EB'; reflexivity|exact PP| |].
    - intros Y EY. rewrite nth_error_map in EY. destruct (nth_error bm (k + 1)) as [[Y0 cs]|] eqn:EN; [|discriminate]. injection EY as ->. assert (Hk1 : k + 1 <= d). { assert (k + 1 < length bm) by (apply nth_error_Some; congruence). lia. }
      destruct (level (k + 1) Hk1) as (p3 & q3 & e3 & M3). destruct (HC' (k + 1) Hk1) as (Y' & cs' & EN' & _). split.
      + rewrite (cols_len _ _ _ _ CD EB). apply (HE _ _ _ _ _ EB EN).
      + exists Y', p3, q3, e3. rewrite nth_error_map, EN'. split; [reflexivity|]. exact (pair_next k X bs Y cs X' bs' Y' cs' p2 q2 e2 p3 q3 e3 M2 M3 EB EN EB' EN').
    - intros EN. apply nth_error_None. apply nth_error_None in EN. rewrite map_length in *. lia.
  Qed.
End Iso.

(** ** The number of vertices *)
Lemma fold_spec {T} (eqb : T -> T -> bool) : (forall x y, eqb x y = true <-> x = y) -> forall l acc, NoDup acc ->
  NoDup (fold_left (fun acc x => if existsb (eqb x) acc then acc else acc ++ [x]) l acc) /\ forall y, In y (fold_left (fun acc x => if existsb (eqb x) acc then acc else acc ++ [x]) l acc) <-> In y acc \/ In y l.
Proof.
  intros He. induction l as [|x l IH]; intros acc ND; cbn [fold_left]; [split; [exact ND|cbn; tauto]|].
  assert (EX : existsb (eqb x) acc = true <-> In x acc). { rewrite existsb_exists. split; [intros (z & H & E); apply He in E; now subst|intros H; exists x; split; [assumption|now apply He]]. }
  destruct (existsb (eqb x) acc) eqn:E.
  - destruct (IH acc ND) as [A B]. split; [exact A|]. intros y. rewrite B. cbn [In]. assert (In x acc) by now apply EX. split; [tauto|]. intros [K|[<-|K]]; tauto.
  - assert (Nx : ~ In x acc) by (intros K; apply EX in K; congruence). destruct (IH (acc ++ [x])) as [A B]; [apply NoDup_rev in ND; rewrite <- (rev_involutive (acc ++ [x])); apply NoDup_rev; rewrite rev_app_distr; cbn; constructor; [now rewrite <- in_rev|exact ND]|].
    split; [exact A|]. intros y. rewrite B, in_app_iff. cbn [In]. tauto.
Qed.
Lemma skeleton_spec {T} (eqb : T -> T -> bool) hist : (forall x y, eqb x y = true <-> x = y) -> NoDup (skeleton eqb hist) /\ forall x, In x (skeleton eqb hist) <-> exists s, In s hist /\ In x s.
Proof.
  intros He. destruct (fold_spec eqb He (concat hist) [] ltac:(constructor)) as [A B]. split; [exact A|]. intros x. unfold skeleton. rewrite B, in_concat. cbn [In]. split; [intros [[]|(s & H)]; exists s; tauto|intros (s & H); right; exists s; tauto].
Qed.
Lemma iso_skeleton {T U} (eqT : T -> T -> bool) (eqU : U -> U -> bool) (f : T -> U) (g : U -> T) hist hist' : (forall x y, eqT x y = true <-> x = y) -> (forall x y, eqU x y = true <-> x = y) ->
  simplicial_iso f g hist hist' -> length (skeleton eqU hist') <= length (skeleton eqT hist).
Proof.
  intros HT HU (I1 & I2 & I3 & I4). destruct (skeleton_spec eqT hist HT) as [A B]. destruct (skeleton_spec eqU hist' HU) as [A' B']. rewrite <- (map_length g). apply NoDup_incl_length.
  - assert (G : forall y, In y (skeleton eqU hist') -> f (g y) = y) by (intros y Hy; apply B' in Hy; destruct Hy as (s & Hs & Hy); now apply (I2 s)). clear - A' G. induction A' as [|y l Hy A' IH]; cbn [map]; constructor.
    + intros K. apply in_map_iff in K. destruct K as (z & E & Hz). apply Hy. replace y with z; [exact Hz|]. rewrite <- (G y (or_introl eq_refl)), <- (G z (or_intror Hz)). now rewrite E.
    + apply IH. intros z Hz. apply G. now right.
  - intros x Hx. apply in_map_iff in Hx. destruct Hx as (y & <- & Hy). apply B' in Hy. destruct Hy as (s & Hs & Hy). apply B. destruct (I4 s Hs) as (s' & Hs' & I). exists s'. split; [exact Hs'|]. apply I, in_map, Hy.
Qed.
