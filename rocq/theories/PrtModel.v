(** Model of ProduceReducedTable, /repo/src/stokes/common/stokes_pc.cpp:389-500, on one rank; the reduction itself (ReduceTable) is in ReduceModel.v, here its result is given.

    The callbacks are functions: [gen] = what generateData gives for every row (data and distant ranks), [enc], [dec], [loct] = encodeData, decodeData, localTransformData.
    Assignment of a row of a table needs a row of the same size; decodeData writes as many entries as it returns, also in its first call, into a scratch array as long as the reduced row. *)
From Verif Require Import Base.
Local Open Scope nat_scope.

(** table[k] = row *)
Definition put_row {A} (t : list (list A)) (k : nat) (row : list A) : res (list (list A)) :=
  old <- rd t k ;; if length old =? length row then wr t k row else Err OutOfBounds.
(** Table<T>(perow): rows with unspecified contents, here copies of [d] *)
Definition new_table {A} (d : A) (perow : list nat) : list (list A) := map (repeat d) perow.

Section P.
Context {D TEX TOUT : Type}.
Variables (gen : list (list D * list nat)) (enc : list D -> list TEX) (dec : list TEX -> list TOUT) (loct : list D -> list TOUT) (dex : TEX) (dout : TOUT).

(** the sizes, :403-427: perow, perow_ex, perow_dps, exRows, n_loc, n_ex *)
Definition prt_sizes : res (list nat * list nat * list nat * list nat * nat * nat) :=
  let n := length gen in
  ' (perow, pex, pdp, exr, nl, ne) <- foldM (fun '(perow, pex, pdp, exr, nl, ne) row =>
      ' (data, dps) <- rd gen row ;;
      match dps with
      | [] => perow <- wr perow nl (length data) ;; Ret (perow, pex, pdp, exr, S nl, ne)
      | _ => pex <- wr pex ne (length data) ;; pdp <- wr pdp row (length dps) ;; exr <- wr exr ne row ;; Ret (perow, pex, pdp, exr, nl, S ne)
      end) (seq 0 n) (repeat 0 n, repeat 0 n, repeat 0 n, repeat 0 n, 0, 0) ;;
  Ret (perow, firstn ne pex, pdp, firstn ne exr, nl, ne).
(** the table of distant ranks and the table that is reduced, :438-462 *)
Definition prt_tables : res (list (list nat) * list (list TEX)) :=
  ' (perow, pex, pdp, exr, nl, ne) <- prt_sizes ;;
  if 0 <? ne then
    sz <- foldM (fun l k => x <- rd pdp k ;; Ret (l ++ [x])) exr [] ;;
    foldM (fun '(dpt, tex) k => row <- rd exr k ;; ' (data, dps) <- rd gen row ;; dpt <- put_row dpt (nl + k) dps ;; tex <- put_row tex k (enc data) ;; Ret (dpt, tex))
      (seq 0 ne) (new_table 0 (repeat 0 (length gen - ne) ++ sz), new_table dex pex)
  else Ret (new_table 0 pdp, []).
(** the resulting tables, :464-500; [red] = result of ReduceTable on this rank *)
Definition prt_out (red : list (list TEX)) : res (list (list TOUT) * list (list nat)) :=
  ' (perow, pex, pdp, exr, nl, ne) <- prt_sizes ;;
  ' (dpt, _) <- prt_tables ;;
  perow <- foldM (fun perow k => x <- rd red k ;; if length (dec x) <=? length x then wr perow (nl + k) (length (dec x)) else Err OutOfBounds) (seq 0 ne) perow ;;
  ' (out, _, _) <- foldM (fun '(out, e, l) row =>
      t <- (if e <? ne then r <- rd exr e ;; Ret (r =? row) else Ret false) ;;
      if (t : bool) then x <- rd red e ;; out <- put_row out (nl + e) (dec x) ;; Ret (out, S e, l)
      else ' (data, _) <- rd gen row ;; out <- put_row out l (loct data) ;; Ret (out, e, S l)) (seq 0 (length gen)) (new_table dout perow, 0, 0) ;;
  Ret (out, dpt).
End P.
