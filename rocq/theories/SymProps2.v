(* C50: irreps given to the letters of a formula, fully (anti)symmetric tensors, sub-groups, enumeration of degrees. *)
From Coq Require Import Reals Lra ZArith Ascii List Bool Arith Lia Permutation Sorted.
From Verif Require Import PyBase PermModel PermProofs PermProps IrrepsModel IrrepsStr IrrepsStrProofs ArrayModel LeadModel LeadProofs StackProofs SumR ScatterProps SymModel SymProofs SymProofs2 SymProps.
From Verif Require PermSign.
From Verif Require Import IrrepsProofs ArrayProofs ArithProofs.
Import ListNotations.

(* ---------- the irreps of the letters ---------- *)
Lemma dget_dset d i j v : dget (dset d i v) j = if Ascii.eqb i j then Some v else dget d j.
Proof. reflexivity. Qed.
Definition extends (d d' : dict) : Prop := forall c v, dget d c = Some v -> dget d' c = Some v.
Lemma link_spec d i j d' : link d (i, j) = Ok d' ->
  extends d d' /\ dget d' i = dget d' j /\ (forall c v, dget d' c = Some v -> dget d c = Some v \/ ((c = i \/ c = j) /\ (dget d i = Some v \/ dget d j = Some v))).
Proof.
  unfold link. destruct (dget d i) as [a|] eqn:Ei, (dget d j) as [b|] eqn:Ej.
  - destruct (irreps_eqb a b) eqn:E; [|discriminate]. apply irreps_eqb_eq in E. subst b. intros Q. injection Q as <-. split; [|split].
    + intros c v H. rewrite !dget_dset. destruct (Ascii.eqb_spec i c) as [<-|_]; [congruence|]. destruct (Ascii.eqb_spec j c) as [<-|_]; congruence.
    + rewrite !dget_dset, !Ascii.eqb_refl. destruct (Ascii.eqb i j); reflexivity.
    + intros c v. rewrite !dget_dset. destruct (Ascii.eqb_spec i c) as [<-|_]; [intros Q; left; congruence|]. destruct (Ascii.eqb_spec j c) as [<-|_]; [intros Q; left; congruence|]. auto.
  - intros Q. injection Q as <-. split; [|split].
    + intros c v H. rewrite !dget_dset. destruct (Ascii.eqb_spec i c) as [<-|_]; [congruence|]. destruct (Ascii.eqb_spec j c) as [<-|_]; congruence.
    + rewrite !dget_dset, !Ascii.eqb_refl. destruct (Ascii.eqb i j); reflexivity.
    + intros c v. rewrite !dget_dset. destruct (Ascii.eqb_spec i c) as [<-|_]; [intros Q; left; congruence|]. destruct (Ascii.eqb_spec j c) as [<-|_]; [intros Q; right; split; [auto|left; congruence]|]. auto.
  - intros Q. injection Q as <-. split; [|split].
    + intros c v H. rewrite !dget_dset. destruct (Ascii.eqb_spec i c) as [<-|_]; congruence.
    + rewrite !dget_dset, !Ascii.eqb_refl. destruct (Ascii.eqb i j); congruence.
    + intros c v. rewrite !dget_dset. destruct (Ascii.eqb_spec i c) as [<-|_]; [intros Q; right; split; [auto|right; congruence]|]. auto.
  - intros Q. injection Q as <-. split; [intros c v H; exact H|]. split; [congruence|]. auto.
Qed.
Lemma link_err d ij e : link d ij = Err e -> e = RuntimeError /\ exists a b, dget d (fst ij) = Some a /\ dget d (snd ij) = Some b /\ a <> b.
Proof.
  destruct ij as [i j]. unfold link. cbn [fst snd]. destruct (dget d i) as [a|], (dget d j) as [b|]; try discriminate. destruct (irreps_eqb a b) eqn:E; [discriminate|]. intros Q. injection Q as <-. split; [reflexivity|]. exists a, b. repeat split; try reflexivity. intros ->. rewrite irreps_eqb_refl in E. discriminate.
Qed.
Lemma extends_trans d d' d'' : extends d d' -> extends d' d'' -> extends d d''.
Proof. intros A B c v H. apply B, A, H. Qed.
(* a colouring of the letters constant along the pairs *)
Definition constant_on (l : list (ascii * ascii)) (r : ascii -> option irreps) : Prop := forall i j, In (i, j) l -> r i = r j.
Lemma link_all_ok l : forall d r, (forall c v, dget d c = Some v -> r c = Some v) -> constant_on l r -> exists d', link_all d l = Ok d' /\ extends d d' /\ (forall c v, dget d' c = Some v -> r c = Some v) /\ (forall i j, In (i, j) l -> forall v, dget d i = Some v \/ dget d j = Some v -> dget d' i = Some v /\ dget d' j = Some v).
Proof.
  induction l as [|[i j] l IH]; intros d r Hr Hc; cbn [link_all].
  - exists d. split; [reflexivity|]. split; [intros c v H; exact H|]. split; [exact Hr|]. intros i j [].
  - destruct (link d (i, j)) as [d1|e] eqn:E.
    2:{ apply link_err in E as (_ & a & b & Ha & Hb & N). cbn [fst snd] in *. apply Hr in Ha, Hb. rewrite (Hc i j (or_introl eq_refl)) in Ha. congruence. }
    destruct (link_spec d i j d1 E) as (X & S1 & S2). cbn [bind].
    assert (Hr1 : forall c v, dget d1 c = Some v -> r c = Some v).
    { intros c v H. apply S2 in H as [H|[[-> | ->] [H|H]]]; try (apply Hr; exact H); [rewrite (Hc i j (or_introl eq_refl)); apply Hr, H|rewrite <- (Hc i j (or_introl eq_refl)); apply Hr, H]. }
    destruct (IH d1 r Hr1 (fun a b Hab => Hc a b (or_intror Hab))) as (d' & E' & X' & Hr' & P). exists d'. split; [exact E'|]. split; [exact (extends_trans _ _ _ X X')|]. split; [exact Hr'|].
    intros a b [Q|Hab] v H.
    + injection Q as <- <-. assert (dget d1 i = Some v /\ dget d1 j = Some v) as [H1 H2] by (destruct H as [H|H]; apply X in H; split; congruence). split; apply X'; assumption.
    + apply (P a b Hab v). destruct H as [H|H]; [left|right]; apply X, H.
Qed.
Lemma link_all_mono l : forall d d', link_all d l = Ok d' -> extends d d' /\ (forall i j, In (i, j) l -> forall v, dget d i = Some v \/ dget d j = Some v -> dget d' i = Some v /\ dget d' j = Some v) /\
  (forall c v, dget d' c = Some v -> dget d c = Some v \/ exists a, In (c, a) l \/ In (a, c) l).
Proof.
  induction l as [|[i j] l IH]; intros d d' E; cbn [link_all] in E.
  - injection E as <-. split; [intros c v H; exact H|]. split; [intros i j []|]. auto.
  - destruct (link d (i, j)) as [d1|] eqn:E1; [|discriminate]. cbn [bind] in E. destruct (link_spec d i j d1 E1) as (X & S1 & S2). destruct (IH d1 d' E) as (X' & P & W). split; [exact (extends_trans _ _ _ X X')|]. split.
    + intros a b [Q|Hab] v H.
      * injection Q as <- <-. assert (dget d1 i = Some v /\ dget d1 j = Some v) as [H1 H2] by (destruct H as [H|H]; apply X in H; split; congruence). split; apply X'; assumption.
      * apply (P a b Hab v). destruct H as [H|H]; [left|right]; apply X, H.
    + intros c v H. apply W in H as [H|(a & [H|H])]; [|right; exists a; left; right; exact H|right; exists a; right; right; exact H]. apply S2 in H as [H|[[-> | ->] _]]; [left; exact H|right; exists j; left; left; reflexivity|right; exists i; right; left; reflexivity].
Qed.

Lemma link_all_err l : forall d e, link_all d l = Err e -> e = RuntimeError.
Proof. induction l as [|ij l IH]; intros d e; cbn [link_all]; [discriminate|]. destruct (link d ij) as [d1|e1] eqn:E; cbn [bind]; [apply IH|]. intros Q. injection Q as <-. exact (proj1 (link_err _ _ _ E)). Qed.

(* the keyword arguments, with one-letter distinct names *)
Definition given (kw : list (chars * irreps)) (c : ascii) (v : irreps) : Prop := In ([c], v) kw.
Definition good_kwargs (kw : list (chars * irreps)) : Prop := NoDup (map fst kw) /\ forall k v, In (k, v) kw -> exists c, k = [c].
Definition kwdict (kw : list (chars * irreps)) : dict := map (fun '(k, v) => (match k with [c] => c | _ => "a"%char end, v)) kw.
Lemma kwdict_Ok kw : good_kwargs kw -> mapM (fun '(k, v) => match k with [c] => Ok (c, v) | _ => Err TypeError end) kw = Ok (kwdict kw).
Proof. intros [_ H]. apply (mapM_Ok _ (fun '(k, v) => (match k with [c] => c | _ => "a"%char end, v))). intros [k v] Hk. destruct (H k v Hk) as (c & ->). reflexivity. Qed.
Lemma dget_In kw c v : good_kwargs kw -> (dget (kwdict kw) c = Some v <-> given kw c v).
Proof.
  unfold given. induction kw as [|[k w] kw IH]; intros [N H]; [split; [discriminate|intros []]|]. cbn [map fst] in N. apply NoDup_cons_iff in N as [N1 N2]. destruct (H k w (or_introl eq_refl)) as (a & ->).
  assert (G : good_kwargs kw) by (split; [exact N2|intros k v' Hk; apply (H k v'); right; exact Hk]). cbn [kwdict map dget]. destruct (Ascii.eqb_spec a c) as [->|Na].
  - split; [intros Q; injection Q as ->; left; reflexivity|]. intros [Q|Q]; [congruence|]. destruct N1. apply in_map_iff. exists ([c], v). split; [reflexivity|exact Q].
  - fold (kwdict kw). rewrite (IH G). split; [right; assumption|]. intros [Q|Q]; [congruence|exact Q].
Qed.
Lemma dget_None d c : dget d c = None <-> forall v, ~ In (c, v) d.
Proof.
  induction d as [|[k w] d IH]; cbn [dget]; [split; [intros _ v []|reflexivity]|]. destruct (Ascii.eqb_spec k c) as [->|N].
  - split; [discriminate|]. intros H. destruct (H w). left. reflexivity.
  - rewrite IH. split; [intros H v [Q|Q]; [congruence|exact (H v Q)]|]. intros H v Q. apply (H v). right. exact Q.
Qed.

Section letters.
Variables (f0 : chars) (g : list signed).
Hypothesis Nf : NoDup f0.
Hypothesis Gg : signed_group (length f0) g.
Notation letter k := (nth k f0 "a"%char).
Definition letter_pairs : list (ascii * ascii) := concat (map (fun '(s, p) => combine f0 (map (fun i => nth i f0 "a"%char) p)) g).
Lemma pairs_Ok : mapM (fun '(s, p) => let! f := mapM (fun i => getitem f0 i) p in Ok (combine f0 f)) g = Ok (map (fun '(s, p) => combine f0 (map (fun i => nth i f0 "a"%char) p)) g).
Proof.
  destruct Gg as (P & _). apply (mapM_Ok _ (fun '(s, p) => combine f0 (map (fun i => nth i f0 "a"%char) p))). intros [s p] H. destruct (P s p H) as (_ & Pp & Lp).
  rewrite (mapM_Ok _ (fun i => nth i f0 "a"%char)); [reflexivity|]. intros i Hi. apply (proj1 (perm_In p i Pp)) in Hi. unfold getitem. rewrite (nth_error_nth' _ "a"%char) by lia. reflexivity.
Qed.
Lemma in_pairs a b : In (a, b) letter_pairs <-> exists s p k, In (s, p) g /\ k < length f0 /\ a = letter k /\ b = letter (nth k p 0).
Proof.
  destruct Gg as (P & _). unfold letter_pairs. rewrite in_concat. split.
  - intros (l & H & Hab). apply in_map_iff in H as ([s p] & <- & H). destruct (P s p H) as (_ & Pp & Lp). apply (In_nth _ _ ("a"%char, "a"%char)) in Hab as (k & Hk & E). rewrite combine_length, map_length in Hk.
    rewrite combine_nth in E by (rewrite map_length; lia). injection E as <- <-. exists s, p, k. split; [exact H|]. split; [lia|]. split; [reflexivity|].
    rewrite (nth_indep _ "a"%char ((fun i => nth i f0 "a"%char) 0)) by (rewrite map_length; lia). exact (map_nth (fun i => nth i f0 "a"%char) p 0 k).
  - intros (s & p & k & H & Hk & -> & ->). destruct (P s p H) as (_ & Pp & Lp). exists (combine f0 (map (fun i => nth i f0 "a"%char) p)). split; [apply in_map_iff; exists (s, p); split; [reflexivity|exact H]|].
    replace (nth k f0 "a"%char, nth (nth k p 0) f0 "a"%char) with (nth k (combine f0 (map (fun i => nth i f0 "a"%char) p)) ("a"%char, "a"%char)); [apply nth_In; rewrite combine_length, map_length; lia|].
    rewrite combine_nth by (rewrite map_length; lia). f_equal. rewrite (nth_indep _ "a"%char ((fun i => nth i f0 "a"%char) 0)) by (rewrite map_length; lia). exact (map_nth (fun i => nth i f0 "a"%char) p 0 k).
Qed.

(* r assigns to each position of the formula its irreps: what is given, carried along the group; every position is reached and no other letter is given *)
Definition assignment (kw : list (chars * irreps)) (r : list irreps) : Prop :=
  length r = length f0 /\
  (forall c v, given kw c v -> exists k, k < length f0 /\ letter k = c /\ nth k r [] = v) /\
  (forall s p k, In (s, p) g -> k < length f0 -> nth (nth k p 0) r [] = nth k r []) /\
  (forall k, k < length f0 -> exists s p, In (s, p) g /\ given kw (letter (nth k p 0)) (nth k r [])).

Lemma letter_inj k k' : k < length f0 -> k' < length f0 -> letter k = letter k' -> k = k'.
Proof. intros. exact (proj1 (NoDup_nth f0 "a"%char) Nf k k' H H0 H1). Qed.
Lemma self_pair k : k < length f0 -> exists s p, In (s, p) g /\ nth k p 0 = k.
Proof. intros H. destruct Gg as (_ & I & _). exists 1%Z, (identity (length f0)). split; [exact I|]. unfold identity. rewrite seq_nth by exact H. reflexivity. Qed.

Lemma pairs_sym a b : In (a, b) letter_pairs -> In (b, a) letter_pairs.
Proof.
  destruct Gg as (P & _ & V & _). rewrite !in_pairs. intros (s & p & k & H & Hk & -> & ->). destruct (P s p H) as (_ & Pp & Lp). exists s, (inv_nat p), (nth k p 0). split; [apply (V s p); [exact H|apply inverse_Ok, Pp]|]. split; [rewrite <- Lp; apply perm_nth_lt; [exact Pp|lia]|]. split; [reflexivity|]. rewrite inv_nat_l by (try assumption; lia). reflexivity.
Qed.
Lemma pairs_trans a b c : In (a, b) letter_pairs -> In (b, c) letter_pairs -> In (a, c) letter_pairs.
Proof.
  destruct Gg as (P & _ & _ & C). rewrite !in_pairs. intros (s & p & k & H & Hk & -> & E) (t & q & j & H' & Hj & E' & ->). destruct (P s p H) as (_ & Pp & Lp), (P t q H') as (_ & Pq & Lq).
  assert (j = nth k p 0) as -> by (apply letter_inj; [exact Hj| |congruence]; rewrite <- Lp; apply perm_nth_lt; [exact Pp|lia]).
  exists (t * s)%Z, (comp_nat q p), k. split; [apply (C t q s p); [exact H'|exact H|apply compose_Ok; congruence]|]. split; [exact Hk|]. split; [reflexivity|]. rewrite comp_nat_nth by lia. reflexivity.
Qed.
Definition linked (a b : ascii) : Prop := a = b \/ In (a, b) letter_pairs.
Lemma linked_trans a b c : linked a b -> linked b c -> linked a c.
Proof. intros [->|H] [->|H']; [left; reflexivity|right; exact H'|right; exact H|right; exact (pairs_trans _ _ _ H H')]. Qed.
Lemma linked_sym a b : linked a b -> linked b a.
Proof. intros [->|H]; [left; reflexivity|right; exact (pairs_sym _ _ H)]. Qed.
Lemma provenance l : forall d d', incl l letter_pairs -> link_all d l = Ok d' -> forall c v, dget d' c = Some v -> exists c0, linked c c0 /\ dget d c0 = Some v.
Proof.
  induction l as [|[i j] l IH]; intros d d' I E c v H; cbn [link_all] in E; [injection E as <-; exists c; split; [left; reflexivity|exact H]|].
  destruct (link d (i, j)) as [d1|] eqn:E1; [|discriminate]. cbn [bind] in E. destruct (IH d1 d' (fun x Hx => I x (or_intror Hx)) E c v H) as (c1 & L1 & H1).
  destruct (link_spec d i j d1 E1) as (_ & _ & S2). pose proof (or_intror (I _ (or_introl eq_refl)) : linked i j) as Lij. apply S2 in H1 as [H1|[[-> | ->] [H1|H1]]]; [exists c1|exists i|exists j|exists i|exists j]; (split; [|exact H1]); try exact L1; apply (linked_trans _ _ _ L1); [exact Lij|apply linked_sym; exact Lij].
Qed.
Lemma formula_irreps_iff kw r : good_kwargs kw -> (formula_irreps kw f0 g = Ok r <-> assignment kw r).
Proof.
  intros Gk. unfold formula_irreps. rewrite (kwdict_Ok kw Gk). cbn [bind]. rewrite pairs_Ok. cbn [bind]. fold letter_pairs. split.
  - intros E. destruct (link_all (kwdict kw) letter_pairs) as [d|] eqn:El; [|discriminate]. cbn [bind] in E. destruct (link_all_mono _ _ _ El) as (X & P & _). pose proof (provenance _ _ _ (incl_refl _) El) as W.
    destruct (mapM _ f0) as [r'|] eqn:Em; [|discriminate]. cbn [bind] in E. destruct (forallb _ d) eqn:Ef; [|discriminate]. injection E as ->.
    assert (Lr : length r = length f0) by exact (mapM_length _ _ _ Em).
    assert (Hr : forall k, k < length f0 -> dget d (letter k) = Some (nth k r [])).
    { clear - Em. revert r Em. induction f0 as [|c f IH]; intros r Em k Hk; [cbn in Hk; lia|]. cbn [mapM] in Em. destruct (dget d c) as [v|] eqn:Ec; [|discriminate]. destruct (mapM _ f) as [r'|] eqn:E'; [|discriminate]. injection Em as <-. destruct k as [|k]; [exact Ec|]. cbn [nth]. apply IH; [reflexivity|cbn in Hk; lia]. }
    assert (Orig : forall k, k < length f0 -> exists s p, In (s, p) g /\ given kw (letter (nth k p 0)) (nth k r [])).
    { intros k Hk. destruct (W _ _ (Hr k Hk)) as (c0 & [<-|L] & H0).
      - destruct (self_pair k Hk) as (s & p & Hp & Ek). exists s, p. split; [exact Hp|]. rewrite Ek. apply (dget_In kw _ _ Gk), H0.
      - apply in_pairs in L as (s & p & j & Hp & Hj & Ej & ->). apply letter_inj in Ej; [|exact Hk|exact Hj]. subst j. exists s, p. split; [exact Hp|]. apply (dget_In kw _ _ Gk), H0. }
    split; [exact Lr|]. split; [|split; [|exact Orig]].
    + intros c v Hv. apply (dget_In kw c v Gk) in Hv. apply X in Hv as Hd. assert (Hin : In c f0).
      { rewrite forallb_forall in Ef. assert (exists w, In (c, w) d) as (w & Hw). { destruct (dget d c) eqn:Q; [|discriminate]. clear - Q. induction d as [|[k w] d IH]; [discriminate|]. cbn [dget] in Q. destruct (Ascii.eqb_spec k c) as [->|N]; [exists w; left; reflexivity|]. destruct (IH Q) as (u & H). exists u. right. exact H. }
        specialize (Ef _ Hw). cbv beta iota in Ef. apply existsb_exists in Ef as (b & Hb & Eb). apply Ascii.eqb_eq in Eb. subst b. exact Hb. }
      apply (In_nth _ _ "a"%char) in Hin as (k & Hk & Ek). exists k. split; [exact Hk|]. split; [exact Ek|]. pose proof (Hr k Hk) as Q. rewrite Ek in Q. congruence.
    + intros s p k Hp Hk. destruct Gg as (Pg & _). destruct (Pg s p Hp) as (_ & Pp & Lp). assert (Hj : nth k p 0 < length f0) by (rewrite <- Lp; apply perm_nth_lt; [exact Pp|lia]).
      destruct (W _ _ (Hr k Hk)) as (c0 & L & H0). assert (L' : linked (letter (nth k p 0)) c0) by (apply (linked_trans _ (letter k)); [apply linked_sym; right; apply in_pairs; exists s, p, k; auto|exact L]).
      assert (Q : dget d (letter (nth k p 0)) = Some (nth k r [])) by (destruct L' as [->|L']; [apply X, H0|exact (proj1 (P _ _ L' _ (or_intror H0)))]). rewrite Hr in Q by exact Hj. congruence.
  - intros (Lr & A1 & A2 & A3). set (col := fun c => if existsb (Ascii.eqb c) f0 then Some (nth (cnat c f0) r []) else None).
    assert (Hcol : forall k, k < length f0 -> col (letter k) = Some (nth k r [])).
    { intros k Hk. unfold col. replace (existsb (Ascii.eqb (letter k)) f0) with true by (symmetry; apply existsb_exists; exists (letter k); split; [apply nth_In, Hk|apply Ascii.eqb_refl]). rewrite cnat_nth by assumption. reflexivity. }
    destruct (link_all_ok letter_pairs (kwdict kw) col) as (d & El & X & Hc & P).
    + intros c v H. apply (dget_In kw c v Gk) in H. destruct (A1 c v H) as (k & Hk & <- & <-). exact (Hcol k Hk).
    + intros a b H. apply in_pairs in H as (s & p & k & Hp & Hk & -> & ->). destruct Gg as (Pg & _). destruct (Pg s p Hp) as (_ & Pp & Lp). rewrite !Hcol; [f_equal; symmetry; exact (A2 s p k Hp Hk)| |exact Hk]. rewrite <- Lp. apply perm_nth_lt; [exact Pp|lia].
    + rewrite El. cbn [bind].
      assert (Hd : forall k, k < length f0 -> dget d (letter k) = Some (nth k r [])).
      { intros k Hk. destruct (A3 k Hk) as (s & p & Hp & G). apply (dget_In kw _ _ Gk) in G. refine (proj1 (P (letter k) (letter (nth k p 0)) _ _ (or_intror G))). apply in_pairs. exists s, p, k. auto. }
      rewrite (mapM_Ok _ (fun c => nth (cnat c f0) r [])).
      2:{ intros c Hin. apply (In_nth _ _ "a"%char) in Hin as (k & Hk & <-). rewrite (Hd k Hk), cnat_nth by assumption. reflexivity. }
      cbn [bind]. replace (map (fun c => nth (cnat c f0) r []) f0) with r.
      2:{ apply (nth_ext _ _ [] []); [rewrite map_length; exact Lr|]. intros k Hk. rewrite (nth_mapc (fun c => nth (cnat c f0) r []) f0 k "a"%char) by lia. rewrite cnat_nth by (try assumption; lia). reflexivity. }
      replace (forallb _ d) with true; [reflexivity|]. symmetry. apply forallb_forall. intros [c w] Hw.
      destruct (dget d c) as [v|] eqn:Q; [|exfalso; exact (proj1 (dget_None d c) Q w Hw)]. apply Hc in Q. unfold col in Q. destruct (existsb (Ascii.eqb c) f0); [reflexivity|discriminate].
Qed.
Lemma formula_irreps_err kw : good_kwargs kw -> (forall r, ~ assignment kw r) -> formula_irreps kw f0 g = Err RuntimeError.
Proof.
  intros Gk N. destruct (formula_irreps kw f0 g) as [r|e] eqn:E; [destruct (N r); apply formula_irreps_iff; assumption|]. f_equal. unfold formula_irreps in E. rewrite (kwdict_Ok kw Gk) in E. cbn [bind] in E. rewrite pairs_Ok in E. cbn [bind] in E.
  destruct (link_all _ _) as [d|e'] eqn:El; cbn [bind] in E; [|injection E as <-; exact (link_all_err _ _ _ El)].
  destruct (mapM _ f0) as [r|e'] eqn:Em; cbn [bind] in E; [destruct (forallb _ d); congruence|]. injection E as <-. apply mapM_Err in Em as (c & _ & Q). destruct (dget d c); congruence.
Qed.
End letters.

Lemma mapM_each {A B} (f : A -> res B) l r a : mapM f l = Ok r -> In a l -> exists b, f a = Ok b.
Proof.
  revert r. induction l as [|c l IH]; intros r E H; [destruct H|]. cbn [mapM] in E. destruct (f c) as [b|] eqn:Ec; [|discriminate]. destruct (mapM f l) as [r'|]; [|discriminate]. destruct H as [<-|H]; [exists b; exact Ec|exact (IH r' eq_refl H)].
Qed.
(* the irreps of the indices: accepted exactly when the irreps given by name extend to every index, constantly along the exchanges of the formula, with no other name; the result is that extension *)
Theorem C50_formula_irreps f0 g kw r : NoDup f0 -> signed_group (length f0) g -> good_kwargs kw -> (formula_irreps kw f0 g = Ok r <-> assignment f0 g kw r).
Proof. intros N G K. exact (formula_irreps_iff f0 g N G kw r K). Qed.
Theorem C50_formula_irreps_rejects f0 g kw : NoDup f0 -> signed_group (length f0) g ->
  ((exists k v, In (k, v) kw /\ length k <> 1) -> formula_irreps kw f0 g = Err TypeError) /\
  (good_kwargs kw -> (forall r, ~ assignment f0 g kw r) -> formula_irreps kw f0 g = Err RuntimeError).
Proof.
  intros N G. split.
  - intros (k & v & H & L). unfold formula_irreps. destruct (mapM _ kw) as [d|e] eqn:E; cbn [bind].
    + exfalso. assert (exists b, (fun '(k, v) => match k with [c] => Ok (c, v) | _ => Err TypeError end) (k, v) = Ok b) as (b & Q).
      { exact (mapM_each _ kw d (k, v) E H). }
      cbv beta iota in Q. destruct k as [|c [|]]; try discriminate. cbn in L. lia.
    + apply mapM_Err in E as ([k' v'] & _ & Q). destruct k' as [|c [|]]; congruence.
  - intros K Na. exact (formula_irreps_err f0 g N G kw K Na).
Qed.
