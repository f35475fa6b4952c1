(** * Pipeline: success, order, independence, output *)
From Coq Require Import Reals ZArith Lia Lra List Arith Bool String Permutation FunctionalExtensionality.
From Verif Require Import Py FFT_Base HalfSpace_Model HalfSpace_Proofs Free_Model Free_Proofs Systems_Model Systems_Proofs
  Factory_Model Pipeline_Model Pipeline_Spec Pipeline_Proofs Pipeline_Sort Pipeline_Results.
From Coq Require Import List.
Import ListNotations.
Local Open Scope R_scope.

Section Run.
  Variable solver : substrate -> surface -> option R -> solver_args -> res oresult.
  Variable sb : substrate.
  Variable sizes : list R.
  Variable plastic resets : bool.
  Variable pentol : R.
  Variable maxiter : nat.
  Variable callback : list output -> output -> res unit.
  Notation calc := (contact_calculation solver sb sizes plastic pentol maxiter).
  Notation calculation := (calculation solver sb sizes plastic resets pentol maxiter).
  Notation run := (run solver sb sizes plastic resets pentol maxiter callback).

  Lemma run_app : forall cs1 cs2 h calls w, run (cs1 ++ cs2) h calls w =
    match run cs1 h calls w with
    | (w', calls', Ret h') => run cs2 h' calls' w'
    | (w', calls', Exc e) => (w', calls', Exc e)
    end.
  Proof.
    induction cs1 as [|c cs1 IH]; intros cs2 h calls w; [reflexivity|]. cbn [Pipeline_Model.run app].
    destruct (calculation c h w) as [w1 [[o h1]|e]]; [|reflexivity].
    destruct (callback calls o); [apply IH|reflexivity].
  Qed.

  (** Every call of the callback but the last returned; the last may have
      ended the run. *)
  Lemma run_callback : forall cs h calls w w' calls' r, run cs h calls w = (w', calls', r) ->
    exists outs, calls' = calls ++ outs /\ forall pre o post, outs = pre ++ o :: post ->
      (exists u, callback (calls ++ pre) o = Ret u) \/ (post = [] /\ exists e, callback (calls ++ pre) o = Exc e /\ r = Exc e).
  Proof.
    induction cs as [|c cs IH]; intros h calls w w' calls' r H; cbn [Pipeline_Model.run] in H.
    - injection H as <- <- <-. exists []. rewrite app_nil_r. split; [reflexivity|]. intros [|? ?] ? ? E; discriminate.
    - destruct (calculation c h w) as [w1 [[o h1]|e]].
      + destruct (callback calls o) as [u|e] eqn:C.
        * destruct (IH _ _ _ _ _ _ H) as (outs & E & F). exists (o :: outs). split; [rewrite E, <- app_assoc; reflexivity|].
          intros [|p pre] o' post E'; cbn in E'; injection E' as <- E'.
          -- left. rewrite app_nil_r. eauto.
          -- specialize (F pre o' post E'). rewrite <- app_assoc in F. exact F.
        * injection H as <- <- <-. exists [o]. split; [reflexivity|]. intros [|p pre] o' post E'; cbn in E'; injection E' as <- E'.
          -- right. rewrite app_nil_r. subst. eauto.
          -- destruct pre; discriminate.
      + injection H as <- <- <-. exists []. rewrite app_nil_r. split; [reflexivity|]. intros [|? ?] ? ? E; discriminate.
  Qed.

  (** ** Elastic steps do not know each other *)
  Definition happ (h : option history) (h1 : history) : history :=
    match h with
    | None => h1
    | Some h0 => mkHist (h_disps h0 ++ h_disps h1) (h_gaps h0 ++ h_gaps h1) (h_press h0 ++ h_press h1)
                        (h_areas h0 ++ h_areas h1) (h_conv h0 ++ h_conv h1)
    end.
  Definition happo (h h1 : option history) : option history :=
    match h1 with None => h | Some h1 => Some (happ h h1) end.
  Definition alone (c : command) (sf : surface) : res (output * history) := snd (calculation c None (fresh, sf)).

  Lemma calc_alone : forall off force h y sf, plastic = false ->
    exists y', calc off force h (y, sf) = (y', sf,
      match snd (calc off force None (fresh, sf)) with Exc e => Exc e | Ret (o, h1) => Ret (o, happ h h1) end).
  Proof.
    intros off force h y sf P. unfold contact_calculation, proxy. rewrite P.
    destruct (proxy_cases sb (solver sb sf None (mkSa off force pentol maxiter)) y) as [y1 E1].
    destruct (proxy_cases sb (solver sb sf None (mkSa off force pentol maxiter)) fresh) as [y2 E2].
    rewrite E1, E2. cbn [snd].
    destruct (solver sb sf None (mkSa off force pentol maxiter)) as [opt|e]; [|exists y1; reflexivity].
    assert (G : forall rr : res oresult, exists y' : state,
      match rr with
      | Ret opt => (y1, sf, match a_shape (o_jac opt) with
         | [n0; n1] => bind (head_slice [n0; n1] (o_x opt)) (fun disp =>
             bind (binop Rminus disp (heights sf)) (fun d =>
             Ret (mkOut disp (amap (fun z => if Rlt_dec (z - o_offset opt) 0 then 0 else z - o_offset opt) d)
                    (amap (fun f => f / sb_area sb) (o_jac opt)) (positive_zone (o_jac opt))
                    (o_offset opt) (asum (o_jac opt) / fold_right Rmult 1 sizes) (count_positive (o_jac opt) / INR (size (sf_grid sf))),
                  let h0 := match h with Some h0 => h0 | None => mkHist [] [] [] [] [] end in
                  mkHist (h_disps h0 ++ [o_offset opt])
                         (h_gaps h0 ++ [amean disp - amean (heights sf) - o_offset opt])
                         (h_press h0 ++ [asum (o_jac opt) / fold_right Rmult 1 sizes])
                         (h_areas h0 ++ [count_positive (o_jac opt) / INR (size (sf_grid sf))]) (h_conv h0 ++ [o_success opt]))))
         | _ => Exc IndexError end)
      | Exc e => (y1, sf, Exc e) end = (y', sf,
      match snd (match rr with
      | Ret opt => (y2, sf, match a_shape (o_jac opt) with
         | [n0; n1] => bind (head_slice [n0; n1] (o_x opt)) (fun disp =>
             bind (binop Rminus disp (heights sf)) (fun d =>
             Ret (mkOut disp (amap (fun z => if Rlt_dec (z - o_offset opt) 0 then 0 else z - o_offset opt) d)
                    (amap (fun f => f / sb_area sb) (o_jac opt)) (positive_zone (o_jac opt))
                    (o_offset opt) (asum (o_jac opt) / fold_right Rmult 1 sizes) (count_positive (o_jac opt) / INR (size (sf_grid sf))),
                  mkHist [o_offset opt]
                         [amean disp - amean (heights sf) - o_offset opt]
                         [asum (o_jac opt) / fold_right Rmult 1 sizes]
                         [count_positive (o_jac opt) / INR (size (sf_grid sf))] [o_success opt])))
         | _ => Exc IndexError end)
      | Exc e => (y2, sf, Exc e) end) with Exc e => Exc e | Ret (o, h1) => Ret (o, happ h h1) end)).
    { intros [op|e]; [|exists y1; reflexivity]. exists y1. cbn [snd]. f_equal.
      destruct (a_shape (o_jac op)) as [|n0 [|n1 [|? ?]]]; try reflexivity.
      destruct (head_slice [n0; n1] (o_x op)) as [disp|e]; [|reflexivity]. cbn [bind].
      destruct (binop Rminus disp (heights sf)); [|reflexivity]. cbn [bind]. destruct h; reflexivity. }
    destruct (G (if o_success opt then match sb_check sb (o_jac opt) with Ret _ => Ret opt | Exc e => Exc e end else Ret opt)) as [y' Y].
    exists y'. exact Y.
  Qed.

  Fixpoint pure (cs : list command) (sf : surface) : list output * res (option history) :=
    match cs with
    | [] => ([], Ret None)
    | c :: cs' =>
        match alone c sf with
        | Exc e => ([], Exc e)
        | Ret (o, h1) =>
            (o :: fst (pure cs' sf),
             match snd (pure cs' sf) with Exc e => Exc e | Ret hr => Ret (happo (Some h1) hr) end)
        end
    end.
  Lemma happ_assoc : forall h h1 h2, happ (Some (happ h h1)) h2 = happ h (happ (Some h1) h2).
  Proof. intros [h|] h1 h2; cbn; rewrite ?app_assoc; reflexivity. Qed.
  Lemma run_pure : plastic = false -> quiet callback -> forall cs h calls y sf, (forall c, In c cs -> c <> Automatic) ->
    exists y', run cs h calls (y, sf) = (y', sf, calls ++ fst (pure cs sf),
      match snd (pure cs sf) with Exc e => Exc e | Ret hr => Ret (happo h hr) end).
  Proof.
    intros P Q. induction cs as [|c cs IH]; intros h calls y sf NA.
    - exists y. cbn. rewrite app_nil_r. reflexivity.
    - assert (C : exists y1, calculation c h (y, sf) = (y1, sf, match alone c sf with Exc e => Exc e | Ret (o, h1) => Ret (o, happ h h1) end)).
      { destruct c as [o|f|]; [| |exfalso; apply (NA Automatic); [left|]; reflexivity]; apply calc_alone; exact P. }
      destruct C as [y1 C]. cbn [Pipeline_Model.run pure]. rewrite C.
      destruct (alone c sf) as [[o h1]|e]; [|exists y1; rewrite app_nil_r; reflexivity].
      rewrite Q. destruct (IH (Some (happ h h1)) (calls ++ [o]) y1 sf (fun c' I => NA c' (or_intror I))) as [y' E].
      exists y'. rewrite E. cbn [fst snd]. rewrite <- app_assoc. cbn [app]. f_equal.
      destruct (snd (pure cs sf)) as [[hr|]|e]; cbn [happo]; [rewrite happ_assoc| |]; reflexivity.
  Qed.
  Lemma pure_app : forall cs1 cs2 sf os1 h1, pure cs1 sf = (os1, Ret h1) ->
    pure (cs1 ++ cs2) sf = (os1 ++ fst (pure cs2 sf), match snd (pure cs2 sf) with Exc e => Exc e | Ret hr => Ret (happo h1 hr) end).
  Proof.
    induction cs1 as [|c cs1 IH]; intros cs2 sf os1 h1 H; cbn [pure app] in *.
    - injection H as <- <-. cbn. destruct (pure cs2 sf) as [os [[hr|]|e]]; reflexivity.
    - destruct (alone c sf) as [[o hh]|e]; [|discriminate]. destruct (pure cs1 sf) as [os [hr|e]] eqn:E; [|discriminate].
      cbn [fst snd] in H. injection H as <- <-. rewrite (IH cs2 sf os hr E). cbn [fst snd app].
      destruct (snd (pure cs2 sf)) as [[h2|]|e]; [|reflexivity|reflexivity].
      cbn [happo]. destruct hr as [hr|]; cbn [happo]; [rewrite happ_assoc|]; reflexivity.
  Qed.

  (** ** Success *)
  Lemma slice_ok : forall n m n' m' (x : arr), a_shape x = [n'; m'] -> (n <= n')%nat -> (m <= m')%nat ->
    head_slice [n; m] x = Ret (mkArr [n; m] (a_val x)).
  Proof.
    intros n m n' m' x E N M. unfold head_slice. rewrite E. cbn [List.length Nat.ltb Nat.leb map combine fst snd skipn].
    rewrite !Nat.min_l by assumption. reflexivity.
  Qed.
  Lemma binop_ok : forall op n m f f', exists d, binop op (mkArr [n; m] f) (mkArr [n; m] f') = Ret (mkArr [n; m] d).
  Proof. intros. unfold binop. cbn [a_shape]. rewrite !bext_refl. eexists. reflexivity. Qed.

  Variable n m : nat.
  Hypothesis N : (0 < n)%nat.
  Hypothesis M : (0 < m)%nat.
  Hypothesis TOPO : sb_topo sb = [n; m].
  Hypothesis CHECK : forall f, sb_check sb f = Ret tt.
  Variable forced : Prop.            (* a force may be asked for *)
  Hypothesis SOLVES : forall sf h sa, sf_grid sf = [n; m] -> sa_maxiter sa = maxiter -> (plastic = false -> h = None) ->
    (sa_force sa <> None -> forced) -> exists r n' m',
    solver sb sf h sa = Ret r /\ a_shape (o_jac r) = [n; m]
    /\ a_shape (o_x r) = [n'; m'] /\ (n <= n')%nat /\ (m <= m')%nat.

  Lemma calc_ok : forall off force h y sf, sf_grid sf = [n; m] -> (force <> None -> forced) ->
    exists y' sf' o h', calc off force h (y, sf) = (y', sf', Ret (o, h')) /\ sf_grid sf' = [n; m].
  Proof.
    intros off force h y sf G FC. unfold contact_calculation.
    assert (P : exists y' sf' r n' m', proxy solver sb plastic (mkSa off force pentol maxiter) (y, sf) = (y', sf', Ret r)
      /\ sf_grid sf' = [n; m] /\ a_shape (o_jac r) = [n; m]
      /\ a_shape (o_x r) = [n'; m'] /\ (n <= n')%nat /\ (m <= m')%nat).
    { unfold proxy. destruct plastic eqn:PL.
      - unfold plastic_minimize_proxy.
        destruct (SOLVES sf (Some (sf_hardness sf * sf_area sf)) (mkSa off force pentol maxiter) G eq_refl ltac:(congruence) FC) as (r & n' & m' & S & J & X & L1 & L2).
        destruct (proxy_cases sb (solver sb sf (Some (sf_hardness sf * sf_area sf)) (mkSa off force pentol maxiter)) y) as [y' E].
        rewrite E, S. destruct (o_success r) eqn:SU.
        + rewrite CHECK, SU. unfold compute_gap. rewrite TOPO, (slice_ok n m n' m' _ X L1 L2). cbn [bind].
          unfold amap, heights. cbn [a_shape a_val]. rewrite G.
          destruct (binop_ok Rminus n m (a_val (o_x r)) (fun x y0 => sf_base sf x y0 + sf_plastic sf x y0 + o_offset r)) as [d D].
          rewrite D. do 3 eexists. exists n', m'. split; [reflexivity|]. auto.
        + rewrite SU. exists y', sf, r, n', m'. auto 7.
      - destruct (SOLVES sf None (mkSa off force pentol maxiter) G eq_refl ltac:(congruence) FC) as (r & n' & m' & S & J & X & L1 & L2).
        destruct (proxy_cases sb (solver sb sf None (mkSa off force pentol maxiter)) y) as [y' E].
        rewrite E, S. exists y', sf, r, n', m'. destruct (o_success r); [rewrite CHECK|]; auto 7. }
    destruct P as (y' & sf' & r & n' & m' & P & G' & J & X & L1 & L2). rewrite P. rewrite J.
    rewrite (slice_ok n m n' m' _ X L1 L2). cbn [bind]. cbn [snd].
    assert (HE : heights sf' = mkArr [n; m] (fun x y0 => sf_base sf' x y0 + sf_plastic sf' x y0))
      by (unfold heights; rewrite G'; reflexivity).
    rewrite HE.
    destruct (binop_ok Rminus n m (a_val (o_x r)) (fun x y0 => sf_base sf' x y0 + sf_plastic sf' x y0)) as [d D]. rewrite D. cbn [bind].
    do 4 eexists. split; [reflexivity|exact G'].
  Qed.
  Lemma calculation_ok : forall c h y sf, sf_grid sf = [n; m] -> (forall f, c = AtForce f -> forced) ->
    exists y' sf' o h', calculation c h (y, sf) = (y', sf', Ret (o, h')) /\ sf_grid sf' = [n; m].
  Proof.
    intros [off|f|] h y sf G FC; cbn [Pipeline_Model.calculation].
    { apply calc_ok; [exact G|congruence]. }
    { apply calc_ok; [exact G|]. intros _. exact (FC f eq_refl). }
    unfold next_contact_step. cbn [fst snd].
    assert (G' : sf_grid (reset_plastic resets sf) = [n; m]) by (unfold reset_plastic; destruct resets; exact G).
    assert (A : exists t, amax (heights (reset_plastic resets sf)) = Ret t /\ exists b, amin (heights (reset_plastic resets sf)) = Ret b).
    { unfold amax, amin, aentries. unfold heights. cbn [a_shape]. rewrite G'. unfold size. cbn [fold_right].
      destruct (n * (m * 1))%nat eqn:Z; [nia|]. cbn [seq map]. eexists. split; [reflexivity|]. eexists. reflexivity. }
    destruct A as (t & -> & b & ->). cbn [bind]. apply calc_ok; [exact G'|congruence].
  Qed.
  Lemma run_ok : quiet callback -> forall cs h calls y sf, sf_grid sf = [n; m] -> (forall f, In (AtForce f) cs -> forced) ->
    exists w' calls' h', run cs h calls (y, sf) = (w', calls', Ret h') /\ (cs <> [] -> h' <> None)
      /\ (h <> None -> h' <> None).
  Proof.
    intros Q. induction cs as [|c cs IH]; intros h calls y sf G FC.
    - do 3 eexists. split; [reflexivity|]. split; congruence.
    - cbn [Pipeline_Model.run]. destruct (calculation_ok c h y sf G ltac:(intros f E; apply (FC f); left; exact E)) as (y' & sf' & o & h' & E & G'). rewrite E, Q.
      destruct (IH (Some h') (calls ++ [o]) y' sf' G' ltac:(intros f I; apply (FC f); right; exact I)) as (w' & calls' & h2 & R' & A & B).
      exists w', calls', h2. split; [exact R'|]. split; intros _; apply B; discriminate.
  Qed.
End Run.

(** ** The whole function *)
Definition nsteps_pos (a : cm_args) : Prop := (0 < requested a)%nat.

Lemma half_space_ok : forall name n m lx ly,
  (name = "periodic"%string /\ (2 <= n)%nat /\ (2 <= m)%nat \/ name = "nonperiodic"%string /\ (1 <= n)%nat /\ (1 <= m)%nat) ->
  exists sb, make_half_space name [n; m] [lx; ly] = Ret sb /\ sb_topo sb = [n; m].
Proof.
  intros name n m lx ly [(-> & Hn & Hm)|(-> & Hn & Hm)]; unfold make_half_space; cbn [String.eqb Ascii.eqb Bool.eqb].
  - unfold call_periodic, half_space_kwargs. cbn [kw_unknown kw_check given orb kw_young default kw_q0 kw_thick kw_poisson kw_engine].
    unfold construct, construct_on, new, new_on. cbn [a_grid a_sizes a_q0 a_thick a_poisson a_engine List.length Nat.eqb orb negb].
    unfold extend_sizes. cbn [bind]. unfold compute_steps. cbn [existsb].
    destruct n as [|[|n]]; [lia|lia|]. destruct m as [|[|m]]; [lia|lia|]. cbn [Nat.eqb orb bind].
    destruct (Req_bool_spec (1 - 0 ^ 2) 0) as [Z|Z]; [lra|]. cbn [bind].
    unfold compute_greens_function, dim. cbn [h_grid List.length Nat.eqb]. unfold greens_2d, fourier_pts. cbn [nth fst snd h_thick h_q0 at_origin].
    assert (Q : (1 <= S (S n) / 2)%nat) by (apply Nat.div_le_lower_bound; lia).
    destruct (Nat.eqb_spec ((S (S n) / 2 + 1) * S (S m)) 0) as [Z'|Z']; [nia|].
    unfold at_origin. cbn [fst snd Nat.eqb andb].
    destruct (Nat.ltb_spec (S (S n) / 2 + 1) 2); [lia|]. destruct (Nat.ltb_spec (S (S m)) 2); [lia|]. cbn [orb bind].
    eexists. split; [reflexivity|]. reflexivity.
  - unfold call_free, half_space_kwargs. cbn [kw_unknown kw_check given orb kw_young default kw_q0 kw_thick kw_poisson kw_engine].
    unfold free_construct, new_on. cbn [a_grid a_sizes a_q0 a_thick a_poisson a_engine base_args fa_grid fa_sizes fa_engine fa_young List.length Nat.eqb orb negb].
    unfold extend_sizes. cbn [bind]. unfold compute_steps. cbn [existsb].
    destruct n as [|n]; [lia|]. destruct m as [|m]; [lia|]. cbn [Nat.eqb orb bind].
    destruct (Req_bool_spec (1 - 0 ^ 2) 0) as [Z|Z]; [lra|]. cbn [bind]. unfold dim. cbn [h_grid List.length Nat.eqb bind].
    eexists. split; [reflexivity|]. unfold free, topo_shape. cbn [sb_topo f_hs f_dom h_grid map combine fst snd].
    rewrite !Nat.min_l by lia. reflexivity.
Qed.

Lemma build_ok : forall c a sb, sb_grid sb = sf_grid (cm_surface a) ->
  build c (STopo (mkTopo (cm_surface a) (Some (cm_sizes a)) (cm_periodic a))) (SubInstance sb) None
    (mkKw None None None None None None false)
  = Ret (mkSystem c sb (mkTopo (cm_surface a) (Some (cm_sizes a)) (cm_periodic a)) fresh).
Proof.
  intros c a sb E. unfold build, make_system_args. cbn [open_arg bind tp_sizes tp_surface fst snd]. unfold make.
  rewrite E, shape_eqb_refl. reflexivity.
Qed.

(** [contact_mechanics] without the intermediate objects. *)
Lemma cm_run : forall solver rms callback a, mode_ok a = true ->
  contact_mechanics solver rms callback a =
  match make_half_space (substrate_name a) (sf_grid (cm_topography a)) (cm_sizes a) with
  | Exc e => ([], Exc e)
  | Ret sb =>
      match run solver sb (cm_sizes a) (is_plastic_run a) (orb (is_plastic_run a) (cm_is_plastic a))
              (tolerance rms a) (cm_maxiter a) callback (commands a) None [] (fresh, cm_surface a) with
      | (_, calls, Exc e) => (calls, Exc e)
      | (_, calls, Ret None) => (calls, Exc TypeErr)
      | (_, calls, Ret (Some h)) => (calls, Ret (h_press h, h_areas h, h_disps h, h_gaps h, h_conv h))
      end
  end.
Proof.
  intros solver rms callback a MO. unfold contact_mechanics. rewrite MO. cbn [negb].
  destruct (surface_heights a) as [HH HG]. rewrite HG.
  destruct (make_half_space _ _ _) as [sb|e] eqn:HS; [|reflexivity]. cbn [bind].
  destruct (half_space_inv _ _ _ _ HS) as (SG & _). rewrite build_ok by congruence. cbn [bind sy_state].
  replace (penetration_tolerance (rms (heights (cm_surface a))) (sf_grid (cm_topography a))) with (tolerance rms a); [reflexivity|].
  unfold penetration_tolerance, tolerance, mean_nat. rewrite HH. unfold Rmax. cbn zeta. destruct (Rle_dec _ (/ 10 ^ 12)); reflexivity.
Qed.
