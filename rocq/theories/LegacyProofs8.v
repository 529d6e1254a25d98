(* The legacy tensor product: right(x2) multiplied with x1 is left_right(x1, x2) *)
From Coq Require Import Reals Lra Lia List.
From Verif Require Import PyBase PermModel PermProofs IrrepsModel IrrepsProofs IrrepsProofs2 ArrayModel ArrayProofs ArrayOps RechunkProofs ArithProofs BlockProofs LeadModel LeadProofs StackProofs BilinProofs ActProofs EquivProofs EquivProofs2 SumR TPModel LinearModel LinearProofs TPProofs TPProofs2 LinearProps TPProps3 TPProps4 SymProofs2 ArrayProps3 LegacyModel GSProofs LegacyProofs LegacyProofs2 LegacyProofs3 LegacyProofs4 LegacyProofs7.
From Verif Require Import EntryProofs.
Import ListNotations.
Open Scope nat_scope.

Lemma rsum_dim (x : irreps) : forall f, rsum (dim x) f = rsum (length x) (fun k => let '(m, ir) := nth k x d0 in rsum m (fun u => rsum (ir_dim ir) (fun i => f (dim (firstn k x) + (u * ir_dim ir + i))))).
Proof.
  induction x as [|[m ir] x IH]; intros f; [reflexivity|]. cbn [length]. rewrite dim_cons, rsum_add, rsum_S_l. f_equal.
  - cbn [nth firstn]. change (dim []) with 0. unfold mi_dim. cbn [fst snd]. rewrite rsum_mul. reflexivity.
  - rewrite IH. apply rsum_ext. intros k _. cbn [nth firstn]. rewrite dim_cons. destruct (nth k x d0) as [m' ir']. apply rsum_ext. intros u _. apply rsum_ext. intros i _. f_equal. lia.
Qed.
Lemma right_yields cg T l x2 y2 xa : coherent x2 -> lead x2 = [] -> rechunk x2 (tp_in2 T) = Ok y2 -> length xa = dim (tp_in1 T) ->
  Forall (coupled_ins (tp_in1 T) (tp_in2 T) (tp_out T)) (tp_ins T) -> Forall suits (tp_ins T) -> Forall rightable (tp_ins T) -> weights_fit (tp_ins T) l -> Forall (fun o => nth (ti_2 o) (chunks y2) None <> None) (tp_ins T) ->
  exists M, right cg T l x2 = Ok M /\ length M = dim (tp_in1 T) /\
    vecmat (dim (tp_out T)) xa M = rowof (tp_out T) (legacy_entry cg (tp_in1 T) (tp_in2 T) (tp_out T) (assign (tp_ins T) l) (entry (tp_in1 T) xa) (entry (tp_in2 T) (arr x2 []))).
Proof.
  intros H2 L2 E2 La HC HS HR HW HN. assert (S2 : simplify (irr x2) = simplify (tp_in2 T)). { destruct (irreps_eqb (simplify (irr x2)) (simplify (tp_in2 T))) eqn:Q; [apply irreps_eqb_eq, Q|]. rewrite rechunk_rejects in E2; [discriminate|]. intros E. apply irreps_eqb_eq in E. congruence. }
  destruct (rechunk_yields x2 (tp_in2 T) H2 S2) as (y & Ey & Iy & Ly & Cy & Ay). rewrite E2 in Ey. injection Ey as <-. rewrite L2 in *. pose proof (chunks_wf y2 Cy) as W. rewrite Iy, Ly in W.
  unfold right. rewrite E2. cbn [bind]. destruct ((dim (tp_in1 T) =? 0) || (dim (tp_in2 T) =? 0) || (dim (tp_out T) =? 0)) eqn:Z.
  - eexists. split; [reflexivity|]. split; [apply repeat_length|]. apply (rows_equal (tp_out T)); [apply tab_length|apply rowof_length|]. intros j z k Hin. rewrite entry_rowof, entry_nth by exact Hin. unfold vecmat. rewrite nth_tab by (apply inside_bound, Hin).
    rewrite rsum_zero by (intros a Ha; unfold mat_at; rewrite La in Ha; rewrite (nth_error_nth (repeat (repeat 0%R (dim (tp_out T))) (dim (tp_in1 T))) a [] (x := repeat 0%R (dim (tp_out T)))) by (apply nth_error_repeat; exact Ha); rewrite nth_repeat; ring).
    symmetry. unfold legacy_entry. apply lsum_zero. intros [o wo] Ho. destruct (Nat.eqb_spec (ti_o o) j) as [E|]; [|reflexivity]. destruct Hin as (mo & c & Ej & Hz & Hk).
    apply assign_in in Ho. rewrite Forall_forall in HC. destruct (HC o Ho) as (m1 & a & m2 & b & mo' & c' & E1 & E2' & E3 & _ & M1 & M2 & M3). rewrite !orb_true_iff, !Nat.eqb_eq in Z. unfold term. rewrite M1, M2. destruct Z as [[Z|Z]|Z].
    + rewrite (dim_zero_mul _ _ _ _ Z E1). reflexivity.
    + rewrite (dim_zero_mul _ _ _ _ Z E2'). apply rsum_zero. reflexivity.
    + pose proof (dim_zero_mul _ _ _ _ Z Ej). lia.
  - destruct (right_outs_ok cg T (chunks y2) (tp_ins T) l None HC HS HR HW HN) as (outs & Eo & Fo). rewrite Eo. cbn [bind]. fold (assembled T outs). eexists. split; [reflexivity|]. split; [apply (assembled_shape cg T (chunks y2) outs (assign (tp_ins T) l)); [apply assign_fst|exact Fo]|].
    apply (rows_equal (tp_out T)); [apply tab_length|apply rowof_length|]. intros j z k Hin. rewrite entry_rowof, entry_nth by exact Hin. unfold vecmat. rewrite nth_tab by (apply inside_bound, Hin). destruct Hin as (mo & c & Ej & Hz & Hk). change (0, Irrep 0 Even) with d0. rewrite (nth_error_nth _ _ _ Ej). cbn [snd].
    rewrite La, rsum_dim. unfold legacy_entry. rewrite (nth_error_nth _ _ _ Ej). cbn [snd].
    set (ps := assign (tp_ins T) l) in *. set (HT := half_term cg T (chunks y2)).
    transitivity (rsum (length (tp_in1 T)) (fun i1 => lsum ps (fun '(o, w) => if (ti_1 o =? i1) && (ti_o o =? j) then let '(m, ir) := nth i1 (tp_in1 T) d0 in rsum m (fun u => rsum (ir_dim ir) (fun i => entry (tp_in1 T) xa i1 u i * HT c o w u i z k)) else 0)%R)).
    + apply rsum_ext. intros i1 Hi1. destruct (nth i1 (tp_in1 T) d0) as [m a] eqn:En. assert (E1 : nth_error (tp_in1 T) i1 = Some (m, a)) by (rewrite <- En; apply nth_error_nth'; exact Hi1).
      transitivity (rsum m (fun u => rsum (ir_dim a) (fun i => entry (tp_in1 T) xa i1 u i * lsum ps (fun '(o, w) => if (ti_1 o =? i1) && (ti_o o =? j) then HT c o w u i z k else 0)))%R).
      * apply rsum_ext. intros u Hu. apply rsum_ext. intros i Hi. rewrite entry_nth by (exists m, a; auto). change (0, Irrep 0 Even) with d0. rewrite En. cbn [snd]. f_equal. apply (assembled_at cg T (chunks y2) ps outs i1 m a j mo c u i z k (assign_fst _ _) Fo E1 Ej Hu Hi Hz Hk).
      * transitivity (lsum ps (fun p => rsum m (fun u => rsum (ir_dim a) (fun i => entry (tp_in1 T) xa i1 u i * (let '(o, w) := p in if (ti_1 o =? i1) && (ti_o o =? j) then HT c o w u i z k else 0)))))%R.
        -- rewrite lsum_rsum. apply rsum_ext. intros u _. rewrite lsum_rsum. apply rsum_ext. intros i _. rewrite lsum_scal. reflexivity.
        -- apply lsum_ext. intros [o w] _. destruct ((ti_1 o =? i1) && (ti_o o =? j)); [reflexivity|]. apply rsum_zero. intros u _. apply rsum_zero. intros i _. ring.
    + rewrite <- lsum_rsum. apply lsum_ext. intros [o w] Ho. apply assign_in in Ho. rewrite Forall_forall in HC. destruct (HC o Ho) as (m1 & a & m2 & b & mo' & c' & E1 & E2' & E3 & _ & M1 & M2 & M3). destruct (Nat.eqb_spec (ti_o o) j) as [E|N]; [|apply rsum_zero; intros; rewrite andb_false_r; reflexivity].
      assert (K1 : ti_1 o < length (tp_in1 T)) by (apply nth_error_Some; congruence).
      transitivity (rsum (length (tp_in1 T)) (fun i1 => if i1 =? ti_1 o then rsum m1 (fun u => rsum (ir_dim a) (fun i => entry (tp_in1 T) xa (ti_1 o) u i * HT c o w u i z k))%R else 0%R)).
      * apply rsum_ext. intros i1 _. rewrite (Nat.eqb_sym i1), andb_true_r. destruct (Nat.eqb_spec (ti_1 o) i1) as [<-|]; [|reflexivity]. rewrite (nth_error_nth _ _ _ E1). reflexivity.
      * rewrite (rsum_delta (length (tp_in1 T)) (ti_1 o) (fun _ => rsum m1 (fun u => rsum (ir_dim a) (fun i => entry (tp_in1 T) xa (ti_1 o) u i * HT c o w u i z k))%R)) by exact K1.
        unfold term, HT, half_term. rewrite (nth_error_nth _ _ _ E1), (nth_error_nth _ _ _ E2'), M1, M2, M3. cbn [snd]. apply rsum_ext. intros u Hu.
        transitivity (rsum (ir_dim a) (fun i => rsum m2 (fun v => coefficient (ti_mode o) (ti_hw o) m1 m2 mo' w u v z * (ti_pw o * rsum (ir_dim b) (fun jj => cg (ir_l a) (ir_l b) (ir_l c) i jj k * entry (tp_in1 T) xa (ti_1 o) u i * entry (tp_in2 T) (arr x2 []) (ti_2 o) v jj)))))%R.
        -- apply rsum_ext. intros i Hi. rewrite <- rsum_scal, <- rsum_scal. apply rsum_ext. intros v Hv. rewrite <- !rsum_scal. apply rsum_ext. intros jj Hj. assert (In2 : inside (irr y2) (ti_2 o) v jj) by (exists m2, b; rewrite Iy; auto). rewrite (entry_chunks y2 [] (ti_2 o) v jj Cy ltac:(rewrite Ly; constructor) In2). rewrite Iy, Ay by constructor. ring.
        -- rewrite rsum_swap. apply rsum_ext. intros v Hv. rewrite !rsum_scal. reflexivity.
Qed.
