(** * What a client program can do: from the logic to [run] and [tsteps] *)
From Coq Require Import String.
From stdpp Require Import gmap.
From Verif Require Import Scalar Geometry Joint Link Prog NodeM ChainM FuncsM IkM Safe SafeSound SafeNode SafeChain Api ApiProofs.

Section ApiSound.
  Context {T : Type} `{Sc : Scalar T} (m : mode T) (h : gmap nat (node T)) (nx : nat) (pub0 : gmap nat bool).
  Hypothesis gua_refl : forall a n, gua m a n n.
  Hypothesis gua_trans : forall a n1 n2 n3, gua m a n1 n2 -> gua m a n2 n3 -> gua m a n1 n3.
  Record started : Prop := {
    st_live : forall a, shared pub0 a -> exists n, h !! a = Some n /\ node_ok m pub0 a n;
    st_dead : forall w, dead m w -> w < nx /\ h !! w = None;
    st_bound : forall a, is_Some (h !! a) -> a < nx;
  }.
  Notation gc := (gcons m h nx pub0).

  Lemma started_gcons po : started -> gc pub0 (Sh h nx ∅ po).
  Proof.
    intros [S1 S2 S3]. split; cbn.
    - reflexivity.
    - intros a Ha. destruct (S1 a Ha) as (n & Hn & Hok). exists n, n. split; [assumption|]. split; [assumption|].
      split; [left; split; assumption|apply gua_refl].
    - auto.
    - exact S2.
    - exact S3.
    - exact S3.
    - lia.
    - auto.
    - intros a u Hu. rewrite lookup_empty in Hu. discriminate.
  Qed.
  Lemma started_tcons t po : tcons nx t pub0 ∅ ∅ ∅ pub0 (Sh h nx ∅ po).
  Proof.
    split; cbn.
    - reflexivity.
    - intros a n Hn. rewrite lookup_empty in Hn. discriminate.
    - intros a u Hu. rewrite lookup_empty in Hu. destruct Hu; discriminate.
    - intros a. rewrite !lookup_empty. split; [discriminate|]. intros [[? H]|H]; [discriminate|set_solver].
    - intros a Ha. rewrite lookup_empty in Ha. destruct Ha; discriminate.
    - intros a Ha. set_solver.
    - intros a n Hn. rewrite lookup_empty in Hn. discriminate.
  Qed.

  Lemma tri_run {A} (R : gmap nat bool -> A -> Prop) p t po :
    started -> tri m pub0 p R ->
    match run t p (Sh h nx ∅ po) with
    | Done x s' => locks s' = ∅ /\ exists GP pub', gc GP s' /\ pub' ⊆ GP /\ R pub' x
    | Panicked _ s' => locks s' = ∅ /\ exists GP, gc GP s'
    | Deadlock _ s' => strict m = false /\ exists GP, gc GP s'
    | OutOfFuel s' => exists GP, gc GP s'
    | Stuck => False
    end.
  Proof.
    intros Hst Hp.
    pose proof (run_sound m h nx pub0 gua_refl gua_trans t _ p pub0 ∅ ∅ ∅ pub0 (Sh h nx ∅ po) Hp
      (started_gcons po Hst) (started_tcons t po)) as H.
    specialize (H ltac:(cbn; intros a u Hu; rewrite lookup_empty in Hu; discriminate)).
    destruct (run t p (Sh h nx ∅ po)) as [x s'|msg s'|a s'|s'|].
    - destruct H as (GP & pub' & priv & hp & hv & H1 & (H2 & -> & -> & -> & HR) & H3 & H4 & H5).
      split; [|exists GP, pub'; split; [assumption|]; split; [apply (tc_pub _ _ _ _ _ _ _ _ H4)|assumption]].
      apply map_empty. intros a. destruct (locks s' !! a) as [u|] eqn:E; [|reflexivity].
      pose proof (H5 _ _ E) as ->. apply (tc_locks _ _ _ _ _ _ _ _ H4) in E as [[? E]|E]; [|set_solver].
      rewrite lookup_empty in E. discriminate.
    - destruct H as (GP & H1 & H2 & H3). eauto.
    - destruct H as (H0 & GP & H1 & H2). eauto.
    - destruct H as (GP & H1 & H2). eauto.
    - exact H.
  Qed.

  Lemma client_run (P : forall R, api T R -> Prop) {A} (hs : A -> list nat) (K : nat -> Prop) (cl : client T A) t po :
    started -> (forall R (k : api T R), P R k -> permitted m k) ->
    obeys P hs K cl -> (forall a, K a -> shared pub0 a) ->
    match run t (denote cl) (Sh h nx ∅ po) with
    | Done x s' => locks s' = ∅ /\ exists GP, gc GP s' /\ forall a, a ∈ hs x -> shared GP a
    | Panicked _ s' => locks s' = ∅ /\ exists GP, gc GP s'
    | Deadlock _ s' => strict m = false /\ exists GP, gc GP s'
    | OutOfFuel s' => exists GP, gc GP s'
    | Stuck => False
    end.
  Proof.
    intros Hst HP Ho HK. pose proof (tri_run _ _ t po Hst (client_tri m P hs HP cl K pub0 Ho HK)) as H.
    destruct (run t (denote cl) (Sh h nx ∅ po)) as [x s'|msg s'|a s'|s'|]; try assumption.
    destruct H as (H1 & GP & pub' & H2 & H3 & H4). split; [assumption|]. exists GP. split; [assumption|].
    intros a Ha. eapply shared_mono; [exact H3|]. exact (proj1 (Forall_forall _ _) H4 a Ha).
  Qed.

  Lemma client_pool (P : forall R, api T R -> Prop) {A} (K : nat -> Prop) (cls : list (client T A)) po c :
    started -> (forall R (k : api T R), P R k -> permitted m k) ->
    (forall cl, cl ∈ cls -> obeys P (fun _ => []) K cl) -> (forall a, K a -> shared pub0 a) ->
    tsteps (map (fun cl => Running (denote cl)) cls, Sh h nx ∅ po) c ->
    exists GP g, pool m h nx pub0
      (fun pub' priv hp hv _ => pub0 ⊆ pub' /\ priv = ∅ /\ hp = ∅ /\ hv = ∅ /\ True) c.1 c.2 GP g.
  Proof.
    intros Hst HP Ho HK Hsteps.
    destruct (pool_steps m h nx pub0 gua_refl gua_trans
      (fun pub' priv hp hv (_ : A) => pub0 ⊆ pub' /\ priv = ∅ /\ hp = ∅ /\ hv = ∅ /\ True)
      _ _ Hsteps pub0 (fun _ => Ghost pub0 ∅ ∅ ∅)) as (GP & g & H & _); [|eauto].
    cbn [fst snd]. split.
    - apply started_gcons. assumption.
    - intros t p Ht. cbn. rewrite list_lookup_fmap in Ht. destruct (cls !! t) as [cl|] eqn:E; [|discriminate].
      injection Ht as <-. split; [|apply started_tcons].
      eapply safe_mono; [|apply (client_tri m P (fun _ => []) HP cl K pub0); [apply Ho; eapply elem_of_list_lookup_2; eauto|assumption]].
      cbn. intros. naive_solver.
    - cbn. intros t u p q _ _ _ a [n Hn]. rewrite lookup_empty in Hn. discriminate.
    - cbn. intros a t Ht. rewrite lookup_empty in Ht. discriminate.
  Qed.
End ApiSound.
