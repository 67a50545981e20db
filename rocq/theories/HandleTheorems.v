(** Theorems about the public handle calls. *)
From Coq Require Import ZArith List Bool String.
From Verif Require Import Base OptionsModel RegistryModel HandleModel HandleSpec HandleProofs.
Import ListNotations.
Local Open Scope Z_scope.

(** A DBSCAN handle (type 4 of the enumeration) with one option, after a clustering. *)
Definition ex_fresh (p : precision) (ht : Z) : alg (option (list Z)) :=
  mkAlg (mkReg false [(codes "leaf size"%string, OInt (mkNum 30 1 greaterequal 0 p_inf))])
        None dbscan_behaviour.
Definition ex_trained : handle (option (list Z)) :=
  crun _ (da_handle_init _ ex_fresh da_double 4) [CCompute (fun _ => Some [0; 0; -1])].

(** C43: null arguments are rejected before anything else. *)
Theorem query_null_arguments_rejected :
  forall S t q d res,
    da_handle_get_result S t None q d res = Ret st_handle_not_initialized None None /\
    (forall h, d = None \/ res = false ->
       rejected st_invalid_input (da_handle_get_result S t (Some h) q d res)).
Proof. exact null_args_lemma. Qed.
Print Assumptions query_null_arguments_rejected.

(** C43: a query in the other precision is rejected, in every state of the handle. *)
Theorem query_wrong_precision_rejected :
  forall S (fresh : precision -> Z -> alg S) p ht h t q d,
    reachable fresh p ht h -> ~ answers p t ->
    rejected st_wrong_type (da_handle_get_result S t (Some h) q (Some d) true).
Proof. exact wrong_type_lemma. Qed.
Print Assumptions query_wrong_precision_rejected.

(** C43: any other query is answered by the algorithm the handle owns, in its current state, or
    reported as uninitialised when it owns none. *)
Theorem query_dispatched_to_owned_algorithm :
  forall S (fresh : precision -> Z -> alg S) p ht h t q d,
    reachable fresh p ht h -> answers p t ->
    match owned h with
    | Some a => answered (b_query (al_beh a) t (al_state a) q d)
                         (da_handle_get_result S t (Some h) q (Some d) true)
    | None => rejected st_handle_not_initialized
                       (da_handle_get_result S t (Some h) q (Some d) true)
    end.
Proof. exact dispatch_lemma. Qed.
Print Assumptions query_dispatched_to_owned_algorithm.

(** C43: a handle owns an algorithm exactly when its type names one, whatever was called. *)
Theorem algorithm_owned_for_known_types :
  forall S (fresh : precision -> Z -> alg S) p ht h,
    reachable fresh p ht h -> has_algorithm ht = true <-> owned h <> None.
Proof. exact has_owned. Qed.
Print Assumptions algorithm_owned_for_known_types.

Example query_cases :
  reachable ex_fresh da_double 4 ex_trained /\ answers da_double RInt /\ ~ answers da_double RFloat /\
  answered (mkAns st_success 5 [0; 0; -1])
           (da_handle_get_result _ RInt (Some ex_trained) 1 (Some 5) true) /\
  answered (mkAns st_invalid_array_dimension 3 [])
           (da_handle_get_result _ RInt (Some ex_trained) 1 (Some 2) true) /\
  rejected st_wrong_type (da_handle_get_result _ RFloat (Some ex_trained) 1 (Some 5) true).
Proof.
  repeat split; try (eexists; reflexivity); intro H; discriminate H.
Qed.

(** C47 without saving: every other call on a handle whose type names no algorithm reports an
    error, in every state of the handle.  Missing: da_handle_save_model, see below. *)
Theorem handle_without_algorithm_partial :
  forall S (fresh : precision -> Z -> alg S) p ht h,
    reachable fresh p ht h -> has_algorithm ht = false ->
    (forall t q d res, is_error (da_handle_get_result S t (Some h) q d res)) /\
    (forall n v, is_error (da_options_set S (Some h) n v)) /\
    (forall n t, is_error (da_options_get S (Some h) n t)) /\
    is_error (da_handle_print_model_versions S (Some h)) /\
    da_handle_refresh S (Some h) = Some h.
Proof. exact no_alg_lemma. Qed.
Print Assumptions handle_without_algorithm_partial.

(** C47 is false for saving: the absent algorithm is dereferenced. *)
Theorem saving_without_algorithm_refuted :
  exists ht h, has_algorithm ht = false /\ reachable ex_fresh da_double ht h /\
    da_handle_save_model _ (fun _ => st_success) (Some h) = Null.
Proof. exists 0, (da_handle_init _ ex_fresh da_double 0). repeat split. exists []. reflexivity. Qed.
Print Assumptions saving_without_algorithm_refuted.

(** C48: a refused option change leaves all option values as they were; it leaves all results as
    they were provided refreshing does not change the algorithm state.
    Missing: the results of algorithms whose refresh discards the model, see below. *)
Theorem refused_option_change_partial :
  forall S (fresh : precision -> Z -> alg S) p ht h n v st h' o,
    reachable fresh p ht h ->
    da_options_set S (Some h) n v = Ret st (Some h') o -> st <> st_success ->
    option_map al_opts (owned h') = option_map al_opts (owned h) /\
    ((forall a, owned h = Some a -> b_refresh (al_beh a) (al_state a) = al_state a) ->
     same_answers h h').
Proof. exact refused_set_lemma. Qed.
Print Assumptions refused_option_change_partial.

(** PCA keeps the empty [refresh] of basic_handle.cpp:66. *)
Definition ex_pca (p : precision) (ht : Z) : alg (option (list Z)) :=
  mkAlg (mkReg false [(codes "n_components"%string, OInt (mkNum 1 0 greaterequal 0 p_inf))])
        (Some [4]) (mkBeh dbscan_query (fun s => s)).
Example refused_option_change_case :
  let h := da_handle_init _ ex_pca da_double 2 in
  (exists h', da_options_set _ (Some h) (codes "n_components"%string) (VInt (-3))
              = Ret st_option_invalid_value (Some h') None) /\
  (forall a, owned h = Some a -> b_refresh (al_beh a) (al_state a) = al_state a).
Proof. split; [eexists; reflexivity|]. intros a H; inversion H; reflexivity. Qed.

(** C48 is false: misspelling an option name discards a trained DBSCAN model. *)
Theorem refused_option_change_refuted :
  exists h n v h',
    reachable ex_fresh da_double 4 h /\
    da_options_set _ (Some h) n v = Ret st_option_not_found (Some h') None /\
    answered (mkAns st_success 3 [0; 0; -1])
             (da_handle_get_result _ RInt (Some h) 1 (Some 3) true) /\
    answered (mkAns st_no_data 3 [])
             (da_handle_get_result _ RInt (Some h') 1 (Some 3) true).
Proof.
  exists ex_trained, (codes "leafsize"%string), (VInt 10). eexists.
  split; [eexists; reflexivity|]. split; [vm_compute; reflexivity|].
  split; eexists; vm_compute; reflexivity.
Qed.
Print Assumptions refused_option_change_refuted.
