(** Gal's formula for a graph made of vertices joined by chains that are long enough. *)
From Coq Require Import List Arith ZArith Bool Lia Setoid Morphisms Ring.
From Verif Require Import GalSpec GalProofs GalProofs2.
Import ListNotations.
Open Scope Z_scope.

Lemma agree_err N m e c q : (N <= m)%nat -> e == ssub c (smul (spow st m) q) -> agree N e c.
Proof.
  intros H E. apply (agree_trans _ _ _ _ (agree_eq N _ _ E)). apply (agree_trans _ _ (ssub c szero)); [|apply agree_eq; ring]. apply agree_sub; [intros k _; reflexivity|now apply agree_pow].
Qed.
Definition lin (d : Z) : series := sadd sone (smul (sc (1 - d)) st).
Lemma lin_linear d : lin d == linear (1 - d).
Proof. symmetry. apply linear_st. Qed.
Lemma lin_add d e : lin (d + e) == ssub (lin d) (smul (sc e) st).
Proof. unfold lin. replace (1 - (d + e)) with ((1 - d) + - e) by ring. rewrite sc_add, sc_opp. ring. Qed.

Section K.
  Context {A : Type} (dec : forall x y : A, {x = y} + {x <> y}).
  Variables (L0 I : list A) (n : nat).
  Let V := L0 ++ I.
  Hypothesis NDV : NoDup V.
  Notation chn := (A * A * list A)%type.
  Definition c_s (c : chn) : A := fst (fst c).
  Definition c_t (c : chn) : A := snd (fst c).
  Definition c_in (c : chn) : list A := snd c.
  Definition edges (K : list chn) : list (A * A) := flat_map (fun c => ce (c_s c) (c_in c) (c_t c)) K.
  Definition ok1 (c : chn) : Prop := In (c_s c) L0 /\ In (c_t c) L0 /\ c_in c <> [] /\ NoDup (c_in c) /\ (forall y, In y (c_in c) -> In y I) /\
    (n <= length (c_in c) + (if dec (c_s c) (c_t c) then 0 else 2))%nat.
  Definition apart (c d : chn) : Prop := forall y, In y (c_in c) -> ~ In y (c_in d).
  Inductive ok : list chn -> Prop :=
  | ok_nil : ok []
  | ok_cons c K : ok1 c -> Forall (apart c) K -> ok K -> ok (c :: K).
  Definition e_at (v : A) (c : chn) : Z := (if dec (c_s c) v then 1 else 0) + (if dec (c_t c) v then 1 else 0).
  Definition dg (K : list chn) (v : A) : Z := zsuml (map (e_at v) K).
  Definition phi (K : list chn) (av : A -> bool) (v : A) : series := if av v then lin (dg K v) else sone.
  Definition closed (K : list chn) (av : A -> bool) : series := smul (spow sg (length K)) (sprod (phi K av) L0).
  Definition un (av : A -> bool) : nat := length (filter (fun v => negb (av v)) L0).
  Notation W := (W dec V).
  Notation del := (del dec).
  Lemma ND0 : NoDup L0.
  Proof. unfold V in NDV. clear -NDV. induction L0 as [|x l IH]; [constructor|]. inversion NDV as [|? ? H K]; subst. constructor; [intros H0; apply H, in_or_app; now left|now apply IH]. Qed.
  Lemma not_both v : In v L0 -> ~ In v I.
  Proof. unfold V in NDV. clear -NDV. induction L0 as [|x l IH]; intros [].
    - subst. inversion NDV as [|? ? H K]; subst. intros HI. apply H, in_or_app. now right.
    - inversion NDV; subst. now apply IH. Qed.
  Lemma closed_ext K av av' : (forall v, In v L0 -> av v = av' v) -> closed K av == closed K av'.
  Proof. intros H. unfold closed. rewrite (sprod_ext (phi K av) (phi K av')); [reflexivity|]. intros v Hv. unfold phi. now rewrite H. Qed.
  Lemma closed_del K s av : In s L0 -> av s = true -> closed K av == smul (lin (dg K s)) (closed K (del s av)).
  Proof.
    intros Hs As. unfold closed. rewrite (sprod_out dec (phi K av) L0 s ND0 Hs). unfold phi at 1. rewrite As.
    rewrite (sprod_ext (phi K (del s av)) (fun y => if dec y s then sone else phi K av y)); [ring|]. intros y _. unfold phi, GalProofs2.del. destruct (dec y s); reflexivity.
  Qed.
  Lemma dg_cons c K v : dg (c :: K) v = dg K v + e_at v c.
  Proof. unfold dg. cbn [map zsuml fold_right]. apply Z.add_comm. Qed.
  Lemma closed_cons c K av : av (c_s c) = false -> av (c_t c) = false -> closed (c :: K) av == smul sg (closed K av).
  Proof.
    intros Hs Ht. unfold closed. cbn [length spow]. rewrite (sprod_ext (phi (c :: K) av) (phi K av)); [ring|]. intros v _. unfold phi. destruct (av v) eqn:Av; [|reflexivity]. rewrite dg_cons. unfold e_at.
    destruct (dec (c_s c) v); [congruence|]. destruct (dec (c_t c) v); [congruence|]. rewrite Z.add_0_r. reflexivity.
  Qed.
  Lemma un_ext av av' : (forall v, In v L0 -> av v = av' v) -> un av = un av'.
  Proof. intros H. unfold un. f_equal. apply filter_ext_in. intros v Hv. now rewrite H. Qed.
  Lemma un_del s av : In s L0 -> av s = true -> un (del s av) = S (un av).
  Proof.
    intros Hs As. unfold un. pose proof ND0 as ND. revert Hs ND. generalize L0 as l. induction l as [|x l IH]; intros [] ND; inversion ND as [|? ? Nx ND']; subst; cbn [filter].
    - unfold GalProofs2.del at 1. destruct (dec s s); [|contradiction]. rewrite As. cbn [negb length]. f_equal. f_equal. apply filter_ext_in. intros v Hv. unfold GalProofs2.del. destruct (dec v s) as [->|]; [contradiction|reflexivity].
    - unfold GalProofs2.del at 1. destruct (dec x s) as [->|]; [contradiction|]. destruct (av x); cbn [negb length]; rewrite IH by assumption; reflexivity.
  Qed.
  Lemma un_pos s av : In s L0 -> av s = false -> (1 <= un av)%nat.
  Proof. intros Hs As. unfold un. assert (In s (filter (fun v => negb (av v)) L0)) as H by (apply filter_In; rewrite As; auto). destruct (filter _ L0); [destruct H|cbn; lia]. Qed.
  Lemma un_two s t av : In s L0 -> In t L0 -> s <> t -> av s = false -> av t = false -> (2 <= un av)%nat.
  Proof.
    intros Hs Ht N As At. unfold un. change 2%nat with (length [s; t]). apply NoDup_incl_length; [constructor; [intros [K|[]]; congruence|constructor; [auto|constructor]]|].
    intros v [<-|[<-|[]]]; apply filter_In; [now rewrite As|now rewrite At].
  Qed.
  Lemma edges_untouched y K : ok K -> ~ In y L0 -> (forall c, In c K -> ~ In y (c_in c)) -> untouched y (edges K).
  Proof.
    intros OK Ny HK. induction OK as [|c K (Hs & Ht & _) HF OK IH]; [constructor|]. cbn [edges flat_map]. fold (edges K). apply ce_untouched; [intros ->; contradiction|intros ->; contradiction|apply HK; now left|].
    apply IH. intros d Hd. apply HK. now right.
  Qed.

  Lemma in_dels X av v : In v X -> dels dec X av v = false.
  Proof. induction X as [|x X IH]; intros []; cbn; unfold GalProofs2.del; [subst; destruct (dec v v); [reflexivity|contradiction]|]. destruct (dec v x); [reflexivity|now apply IH]. Qed.
  Lemma del_same s av v : av s = false -> del s av v = av v.
  Proof. intros H. unfold GalProofs2.del. destruct (dec v s) as [->|]; congruence. Qed.
  Lemma del_true s t av : s <> t -> del s av t = av t.
  Proof. intros H. unfold GalProofs2.del. destruct (dec t s); congruence. Qed.
  Lemma del_eq s av : del s av s = false.
  Proof. unfold GalProofs2.del. destruct (dec s s); congruence. Qed.
  Theorem gal_chains K : ok K -> forall av, (forall c y, In c K -> In y (c_in c) -> av y = true) -> (forall y, In y I -> (forall c, In c K -> ~ In y (c_in c)) -> av y = false) ->
    agree (n + 1 - un av) (W (edges K) av) (closed K av).
  Proof.
    intros OK. induction OK as [|c K OC HF OK IH]; intros av H1 H2.
    - apply agree_eq. unfold closed. cbn [edges flat_map GalProofs2.W length spow]. unfold V. rewrite sprod_app. rewrite (sprod_one _ I); [|intros y Hy; now rewrite H2 by (auto; intros c [])].
      rewrite (sprod_ext (fun v => if av v then sadd sone st else sone) (phi [] av) L0); [ring|]. intros v _. unfold phi, dg, lin. cbn [map zsuml fold_right]. destruct (av v); [|reflexivity]. change (1 - 0) with 1. rewrite sc_one. ring.
    - destruct c as [[s t] Y]. destruct OC as (Hs & Ht & NY & ND & HI & HL). unfold c_s, c_t, c_in in *. cbn [fst snd] in *. destruct Y as [|x X]; [congruence|]. set (Y := x :: X) in *.
      assert (NsY : ~ In s Y) by (intros K0; apply (not_both s Hs), HI, K0). assert (NtY : ~ In t Y) by (intros K0; apply (not_both t Ht), HI, K0).
      assert (CH := chain dec V NDV (edges K) s t x X av). cbn zeta in CH. fold Y in CH. specialize (CH ND NsY NtY).
      assert (HY : forall y, In y Y -> In y V /\ untouched y (edges K) /\ av y = true).
      { intros y Hy. split; [unfold V; apply in_or_app; right; now apply HI|]. split; [|apply (H1 (s, t, Y)); [now left|exact Hy]].
        apply edges_untouched; [exact OK|intros K0; apply (not_both y K0), HI, Hy|]. intros d Hd. rewrite Forall_forall in HF. exact (HF d Hd y Hy). }
      specialize (CH HY). cbn [edges flat_map]. fold (edges K). unfold c_s, c_t, c_in. cbn [fst snd]. apply (agree_trans _ _ _ _ (agree_eq _ _ _ CH)). clear CH.
      set (av' := dels dec Y av) in *. assert (AV : forall v, In v L0 -> av' v = av v) by (intros v Hv; apply dels_out; intros K0; apply (not_both v Hv), HI, K0).
      assert (IH' : forall B, (forall v, ~ In v L0 -> B v = av' v) -> agree (n + 1 - un B) (W (edges K) B) (closed K B)).
      { intros B HB. apply IH.
        - intros d y Hd Hy. assert (Ny : ~ In y L0). { clear -OK Hd Hy NDV. intros K0. apply (not_both y K0). clear K0. induction OK as [|d' K' O F OK IH]; [destruct Hd|]. destruct Hd as [->|Hd]; [now apply O|auto]. }
          rewrite HB by exact Ny. unfold av'. rewrite dels_out; [apply (H1 d); [now right|exact Hy]|]. intros K0. rewrite Forall_forall in HF. apply (HF d Hd y K0 Hy).
        - intros y Hy Hd. rewrite HB by (intros K0; now apply (not_both y K0)). destruct (in_dec dec y Y) as [K0|K0]; [now apply in_dels|]. unfold av'. rewrite dels_out by exact K0. apply H2; [exact Hy|]. intros d [<-|Hd']; [exact K0|now apply Hd]. }
      assert (U : un av' = un av) by (now apply un_ext). set (k := length X) in *. change (length Y) with (S k) in HL |- *.
      set (E := edges K) in *. assert (OUT : forall z v, In z L0 -> ~ In v L0 -> forall B, del z B v = B v) by (intros z v Hz Hv B; unfold GalProofs2.del; destruct (dec v z) as [->|]; [contradiction|reflexivity]).
      (* replace the generating functions by the closed forms *)
      set (N := (n + 1 - un av)%nat).
      assert (P0 : agree N (W E av') (closed K av')) by (unfold N; rewrite <- U; now apply IH').
      assert (P1 : forall z, In z L0 -> av z = true -> agree (N - 1) (W E (del z av')) (closed K (del z av'))).
      { intros z Hz Az. apply (agree_le _ (n + 1 - un (del z av'))); [rewrite un_del by (auto; now rewrite AV); unfold N; lia|]. apply IH'. intros v Hv. now apply OUT. }
      assert (P2 : s <> t -> av s = true -> av t = true -> agree (N - 1 - 1) (W E (del t (del s av'))) (closed K (del t (del s av')))).
      { intros Nst As At. apply (agree_le _ (n + 1 - un (del t (del s av')))). { rewrite un_del; [|exact Ht|rewrite del_true by exact Nst; now rewrite AV]. rewrite un_del by (auto; now rewrite AV). unfold N. lia. }
        apply IH'. intros v Hv. now rewrite !OUT. }
      assert (Q : forall z p, In z L0 -> av z = true -> agree N (smul (smul st p) (W E (del z av'))) (smul (smul st p) (closed K (del z av')))).
      { intros z p Hz Az. apply (agree_trans _ _ (smul st (smul p (W E (del z av'))))); [apply agree_eq; ring|]. apply (agree_trans _ _ (smul st (smul p (closed K (del z av'))))); [|apply agree_eq; ring]. apply agree_t, agree_mul; [intros ? _; reflexivity|now apply P1]. }
      assert (Q2 : forall p, s <> t -> av s = true -> av t = true -> agree N (smul (smul st (smul st p)) (W E (del t (del s av')))) (smul (smul st (smul st p)) (closed K (del t (del s av'))))).
      { intros p Nst As At. apply (agree_trans _ _ (smul st (smul st (smul p (W E (del t (del s av'))))))); [apply agree_eq; ring|]. apply (agree_trans _ _ (smul st (smul st (smul p (closed K (del t (del s av'))))))); [|apply agree_eq; ring]. apply agree_t, agree_t, agree_mul; [intros ? _; reflexivity|now apply P2]. }
      assert (Q0 : agree N (smul (pk (S k)) (W E av')) (smul (pk (S k)) (closed K av'))) by (apply agree_mul; [intros ? _; reflexivity|exact P0]).
      assert (CE : closed ((s, t, Y) :: K) av == closed ((s, t, Y) :: K) av') by (apply closed_ext; intros v Hv; now rewrite AV).
      apply (agree_trans _ _ (closed ((s, t, Y) :: K) av')); [|apply agree_eq; now symmetry]. clear CE.
      set (ds := dg K s). set (dt := dg K t).
      assert (UN : un av' = un av) by exact U. clear U.
      destruct (dec s t) as [Est|Nst].
      + subst t. destruct (av s) eqn:As.
        * apply (agree_trans _ _ (ssub (ssub (smul (pk (S k)) (closed K av')) (smul (smul st (pk k)) (closed K (del s av')))) (ssub (smul (smul st (pk k)) (closed K (del s av'))) szero))).
          { apply agree_sub; [apply agree_sub; [exact Q0|now apply Q]|apply agree_sub; [now apply Q|intros ? _; reflexivity]]. }
          assert (As' : av' s = true) by (now rewrite AV). rewrite <- (AV s Hs) in As.
          apply (agree_err _ (S (S k)) _ _ (smul sg (smul (ssub (ssub (lin ds) sone) sone) (closed K (del s av'))))); [unfold N; lia|].
          rewrite (closed_del ((s, s, Y) :: K) s av' Hs As'), closed_cons by (apply del_eq). rewrite (closed_del K s av' Hs As'). rewrite dg_cons. unfold e_at, c_s, c_t. cbn [fst snd]. destruct (dec s s); [|contradiction]. fold ds. rewrite lin_add, (sc_add 1 1), sc_one. rewrite t_pk, pk_closed. cbn [spow]. ring.
        * rewrite <- (AV s Hs) in As. apply (agree_trans _ _ (ssub (ssub (smul (pk (S k)) (closed K av')) szero) szero)).
          { apply agree_sub; [apply agree_sub; [exact Q0|intros ? _; reflexivity]|intros ? _; reflexivity]. }
          apply (agree_err _ (S (S k)) _ _ (smul sg (closed K av'))); [unfold N; lia|]. rewrite closed_cons by (exact As). rewrite pk_closed. ring.
      + destruct (av s) eqn:As, (av t) eqn:At.
        * apply (agree_trans _ _ (ssub (ssub (smul (pk (S k)) (closed K av')) (smul (smul st (pk k)) (closed K (del t av')))) (ssub (smul (smul st (pk k)) (closed K (del s av'))) (smul (smul st (smul st (qk k))) (closed K (del t (del s av'))))))).
          { apply agree_sub; [apply agree_sub; [exact Q0|now apply Q]|apply agree_sub; [now apply Q|now apply Q2]]. }
          rewrite <- (AV s Hs) in As. rewrite <- (AV t Ht) in At.
          assert (At' : del s av' t = true) by (now rewrite del_true). assert (As' : del t av' s = true) by (rewrite del_true by congruence; exact As).
          set (R := closed K (del t (del s av'))). assert (E1 : closed K (del s av') == smul (lin dt) R) by (now apply closed_del).
          assert (E2 : closed K (del t av') == smul (lin ds) R). { rewrite (closed_del K s (del t av') Hs As'). unfold R. rewrite (closed_ext K (del s (del t av')) (del t (del s av'))) by (intros; apply del_comm). reflexivity. }
          assert (E3 : closed K av' == smul (lin ds) (smul (lin dt) R)) by (rewrite (closed_del K s av' Hs As), E1; reflexivity).
          assert (E4 : closed ((s, t, Y) :: K) av' == smul (ssub (lin ds) st) (smul (ssub (lin dt) st) (smul sg R))).
          { rewrite (closed_del _ s av' Hs As), (closed_del _ t (del s av') Ht At'), closed_cons; [|unfold c_s; cbn [fst]; rewrite del_true by congruence; apply del_eq|apply del_eq]. fold R.
            rewrite !dg_cons. unfold e_at, c_s, c_t. cbn [fst snd]. destruct (dec s s); [|contradiction]. destruct (dec t t); [|contradiction]. destruct (dec t s); [congruence|]. destruct (dec s t); [congruence|]. fold ds dt. rewrite !Z.add_0_r, !Z.add_0_l. rewrite !lin_add, !sc_one. ring. }
          apply (agree_err _ (S (S (S (S k)))) _ _ (smul (smul (sc (1 - ds)) (sc (1 - dt))) (smul sg R))); [unfold N; lia|]. rewrite E4, E1, E2, E3. fold R.
          rewrite t_pk, tt_qk, pk_closed. unfold lin. cbn [spow]. ring.
        * apply (agree_trans _ _ (ssub (ssub (smul (pk (S k)) (closed K av')) szero) (ssub (smul (smul st (pk k)) (closed K (del s av'))) szero))).
          { apply agree_sub; [apply agree_sub; [exact Q0|intros ? _; reflexivity]|apply agree_sub; [now apply Q|intros ? _; reflexivity]]. }
          rewrite <- (AV s Hs) in As. rewrite <- (AV t Ht) in At. assert (At' : del s av' t = false) by (now rewrite del_true).
          set (R := closed K (del s av')). assert (E3 : closed K av' == smul (lin ds) R) by (now apply closed_del).
          assert (E4 : closed ((s, t, Y) :: K) av' == smul (ssub (lin ds) st) (smul sg R)).
          { rewrite (closed_del _ s av' Hs As), closed_cons; [|apply del_eq|exact At']. fold R. rewrite !dg_cons. unfold e_at, c_s, c_t. cbn [fst snd]. destruct (dec s s); [|contradiction]. destruct (dec t s); [congruence|]. fold ds. rewrite Z.add_0_r, lin_add, sc_one. ring. }
          pose proof (un_pos t av' Ht At). apply (agree_err _ (S (S (S k))) _ _ (smul (sc (1 - ds)) (smul sg R))); [unfold N; lia|]. rewrite E4, E3. rewrite t_pk, pk_closed. unfold lin. cbn [spow]. ring.
        * apply (agree_trans _ _ (ssub (ssub (smul (pk (S k)) (closed K av')) (smul (smul st (pk k)) (closed K (del t av')))) szero)).
          { apply agree_sub; [apply agree_sub; [exact Q0|now apply Q]|intros ? _; reflexivity]. }
          rewrite <- (AV s Hs) in As. rewrite <- (AV t Ht) in At. assert (As' : del t av' s = false) by (rewrite del_true by congruence; exact As).
          set (R := closed K (del t av')). assert (E3 : closed K av' == smul (lin dt) R) by (now apply closed_del).
          assert (E4 : closed ((s, t, Y) :: K) av' == smul (ssub (lin dt) st) (smul sg R)).
          { rewrite (closed_del _ t av' Ht At), closed_cons; [|exact As'|apply del_eq]. fold R. rewrite !dg_cons. unfold e_at, c_s, c_t. cbn [fst snd]. destruct (dec t t); [|contradiction]. destruct (dec s t); [congruence|]. fold dt. rewrite Z.add_0_l, lin_add, sc_one. ring. }
          pose proof (un_pos s av' Hs As). apply (agree_err _ (S (S (S k))) _ _ (smul (sc (1 - dt)) (smul sg R))); [unfold N; lia|]. rewrite E4, E3. rewrite t_pk, pk_closed. unfold lin. cbn [spow]. ring.
        * apply (agree_trans _ _ (ssub (ssub (smul (pk (S k)) (closed K av')) szero) szero)).
          { apply agree_sub; [apply agree_sub; [exact Q0|intros ? _; reflexivity]|intros ? _; reflexivity]. }
          rewrite <- (AV s Hs) in As. rewrite <- (AV t Ht) in At. pose proof (un_two s t av' Hs Ht Nst As At).
          apply (agree_err _ (S (S k)) _ _ (smul sg (closed K av'))); [unfold N; lia|]. rewrite closed_cons by assumption. rewrite pk_closed. ring.
  Qed.
End K.
