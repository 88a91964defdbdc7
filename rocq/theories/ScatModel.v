(** Model of BlockTM::ScatterNodalData, /repo/src/base/mesh/base_mesh.hpp:218-263, all ranks at once.

    Values are integers (the code: any type).  [EN], [CN] r k = nnodes_eqc, nnodes_cross of class k on rank r; disp_eqc and disp_cross are their partial sums (base_mesh_impl.hpp:88-94, 374-378).
    The messages between two ranks are received in the order in which they are sent.  A receive without a message (or a message nobody receives) is [Err Thrown], a message of another length than its buffer is [Err OutOfBounds]. *)
From Verif Require Import Base EQCModel ReduceModel GCModel GEModel.
Local Open Scope nat_scope.

(** disp[k] *)
Definition disp (counts : list nat) (k : nat) : nat := list_sum (firstn k counts).
(** the entries of class k: Part(disp_eq[k], GetENN(k)) and Part(GetENN() + disp_c[k], GetCNN(k)), 242-243 and 260-261 *)
Definition class_ids (en cn : list nat) (k : nat) : list nat := seq (disp en k) (nth k en 0) ++ seq (list_sum en + disp cn k) (nth k cn 0).
(** the classes whose data rank [me] sends to p, 239-250 *)
Definition sends (me : nat) (d : list (list nat)) (p : nat) : list nat := filter (fun k => is_master me (nth k d []) && has p (nth k d [])) (seq 1 (length d - 1)).
(** the classes whose data rank [me] receives from q, 252-253 *)
Definition waits (me : nat) (d : list (list nat)) (q : nat) : list nat := filter (fun k => negb (is_master me (nth k d [])) && (hd 0 (nth k d []) =? q)) (seq 1 (length d - 1)).
(** what rank [me] sends, by receiver *)
Definition send_all (np me : nat) (d : list (list nat)) (en cn : list nat) (av : list Z) : res (list (list (list Z))) :=
  if length d <? 2 then Ret (repeat [] np) else mapM (fun p => mapM (fun k => mapM (rd av) (class_ids en cn k)) (sends me d p)) (seq 0 np).
(** 256-263; [inbox] q = the messages of rank q *)
Definition receive_all (np me : nat) (d : list (list nat)) (en cn : list nat) (inbox : list (list (list Z))) (av : list Z) : res (list Z) :=
  if length d <? 2 then (if forallb (fun m => length m =? 0) inbox then Ret av else Err Thrown) else
  if forallb (fun q => length (nth q inbox []) =? length (waits me d q)) (seq 0 np) then
    foldM (fun av k => dk <- rd d k ;;
      if is_master me dk then Ret av
      else ms <- rd inbox (hd 0 dk) ;; m <- rd ms (pos_of k (waits me d (hd 0 dk))) ;;
        let ids := class_ids en cn k in
        if length m =? length ids then foldM (fun av ix => wr av (fst ix) (snd ix)) (combine ids m) av else Err OutOfBounds) (seq 1 (length d - 1)) av
  else Err Thrown.
Definition ScatterNodalData (H : list (list (list nat))) (EN CN : list (list nat)) (data : list (list Z)) : res (list (list Z)) :=
  let np := length H in
  out <- mapM (fun r => av <- rd data r ;; send_all np r (nth r H []) (nth r EN []) (nth r CN []) av) (seq 0 np) ;;
  mapM (fun r => av <- rd data r ;; inbox <- mapM (fun q => o <- rd out q ;; rd o r) (seq 0 np) ;; receive_all np r (nth r H []) (nth r EN []) (nth r CN []) inbox av) (seq 0 np).
