-Q theories Verif
theories/Common/Bytes.v
theories/Key/Model.v
theories/Key/Spec.v
theories/Key/ProofsWord.v
theories/Key/ProofsMem.v
theories/Key/ProofsFloat.v
theories/Key/ProofsKey.v
theories/Key/ProofsTop.v
theories/Key/Properties.v
theories/Tso/Model.v
theories/Tso/Spec.v
theories/Tso/Proofs.v
theories/Tso/ProofsClient.v
theories/Tso/Properties.v
theories/AutoInc/Model.v
theories/AutoInc/Spec.v
theories/AutoInc/Proofs.v
theories/AutoInc/ProofsInsert.v
theories/AutoInc/Properties.v
theories/Common/KV.v
theories/Raft/Model.v
theories/Raft/Spec.v
theories/Raft/ProofsTerm.v
theories/Raft/ProofsKeys.v
theories/Raft/ProofsLog.v
theories/Raft/ProofsRun.v
theories/Raft/ProofsTop.v
theories/Raft/Properties.v
theories/Lru/Model.v
theories/Lru/Spec.v
theories/Lru/Proofs.v
theories/Lru/Properties.v
theories/Date/Model.v
theories/Date/Spec.v
theories/Date/Tables.v
theories/Date/TextModel.v
theories/Date/Reading.v
theories/Date/ProofsCal.v
theories/Date/ProofsTime.v
theories/Date/ProofsPack.v
theories/Date/ProofsDur.v
theories/Date/ProofsAdd.v
theories/Date/ProofsText.v
theories/Date/ProofsText2.v
theories/Date/Properties.v
theories/Like/Model.v
theories/Like/Spec.v
theories/Like/Proofs.v
theories/Like/Proofs2.v
theories/Like/Properties.v
theories/Expr/Value.v
theories/Expr/Model.v
theories/Expr/Spec.v
theories/Expr/Proofs.v
theories/Expr/RowCompare.v
theories/Expr/Arith.v
theories/Expr/Mixed.v
theories/Expr/Properties.v
theories/Sort/Model.v
theories/Sort/Spec.v
theories/Sort/ProofsHeap.v
theories/Sort/ProofsTopN.v
theories/Sort/ProofsMerge.v
theories/Sort/Properties.v
theories/Proto/Spec.v
theories/Proto/Model.v
theories/Proto/Reading.v
theories/Proto/ProofsText.v
theories/Proto/ProofsRead.v
theories/Proto/ProofsBin.v
theories/Proto/ProofsExec.v
theories/Proto/Properties.v
theories/Split/Model.v
theories/Split/Spec.v
theories/Split/Proofs.v
theories/Split/ProofsUse.v
theories/Split/Properties.v
theories/Olap/Model.v
theories/Olap/Spec.v
theories/Olap/Proofs.v
theories/Olap/Properties.v
theories/Route/Model.v
theories/Route/Spec.v
theories/Route/Proofs.v
theories/Route/ProofsUpd.v
theories/Route/ProofsStep.v
theories/Route/ProofsTop.v
theories/Route/Properties.v
theories/Part/Model.v
theories/Part/Spec.v
theories/Part/Proofs.v
theories/Part/Properties.v
theories/Txn/SaveModel.v
theories/Txn/SaveSpec.v
theories/Txn/SaveProofs.v
theories/Txn/PropertiesSave.v
theories/Txn/CommitModel.v
theories/Txn/CommitSpec.v
theories/Txn/CommitProofs.v
theories/Txn/PropertiesCommit.v
theories/Apply/Model.v
theories/Apply/Spec.v
theories/Apply/Proofs.v
theories/Apply/Properties.v
theories/Rev/Model.v
theories/Rev/Spec.v
theories/Rev/Order.v
theories/Rev/ProofsParser.v
theories/Rev/ProofsExec.v
theories/Rev/Proofs.v
theories/Rev/Arrow.v
theories/Rev/Properties.v
theories/Rev/LevelModel.v
theories/Rev/LevelSpec.v
theories/Rev/LevelOrder.v
theories/Rev/LevelMerge.v
theories/Rev/LevelProofs.v
theories/Rev/LevelRead.v
theories/Rev/LevelCheck.v
theories/Rev/PropertiesLevel.v
theories/Cut/Model.v
theories/Cut/Spec.v
theories/Cut/Values.v
theories/Cut/Truth.v
theories/Cut/Collect.v
theories/Cut/EqStep.v
theories/Cut/InStep.v
theories/Cut/RangeStep.v
theories/Cut/OrIn.v
theories/Cut/Proofs.v
theories/Cut/Def.v
theories/Cut/Row.v
theories/Cut/Properties.v
theories/Dml/Model.v
theories/Dml/Spec.v
theories/Dml/Base.v
theories/Dml/Inv.v
theories/Dml/Rows.v
theories/Dml/Update.v
theories/Dml/Insert.v
theories/Dml/Stmt.v
theories/Dml/DdlModel.v
theories/Dml/Ddl.v
theories/Dml/Count.v
theories/Dml/Properties.v
theories/Dml/PropertiesRef.v
theories/Path/Model.v
theories/Path/Spec.v
theories/Path/Scan.v
theories/Path/Hit.v
theories/Path/Tuples.v
theories/Path/Loop.v
theories/Path/Bounds.v
theories/Path/Plan.v
theories/Path/Good.v
theories/Path/Read.v
theories/Path/Properties.v
theories/Path/PropertiesRef.v
theories/Agg/Model.v
theories/Agg/Spec.v
theories/Agg/Bits.v
theories/Agg/Sets.v
theories/Agg/Lists.v
theories/Agg/Group.v
theories/Agg/Calls.v
theories/Agg/Steps.v
theories/Agg/Final.v
theories/Agg/Stage.v
theories/Agg/Top.v
theories/Agg/Two.v
theories/Agg/Properties.v
theories/Agg/PropertiesRef.v
theories/Join/Model.v
theories/Join/Spec.v
theories/Join/Keys.v
theories/Join/Exec.v
theories/Join/Rows.v
theories/Join/Limit.v
theories/Join/Properties.v
theories/Join/PropertiesRef.v
theories/Join/Plan.v
theories/Join/PlanSpec.v
theories/Join/Push.v
theories/Join/PushTop.v
theories/Join/PropertiesPlan.v
theories/Window/Model.v
theories/Window/Spec.v
theories/Window/Fn.v
theories/Window/Order.v
theories/Window/Rank.v
theories/Window/Run.v
theories/Window/Node.v
theories/Window/Loop.v
theories/Window/Top.v
theories/Window/Properties.v
theories/Global/Model.v
theories/Global/Spec.v
theories/Global/Core.v
theories/Global/Batch.v
theories/Global/Stmts.v
theories/Global/Ignore.v
theories/Global/UpdDel.v
theories/Global/Replace.v
theories/Global/OnDup.v
theories/Global/Properties.v
theories/Subquery/Spec.v
theories/Subquery/Model.v
theories/Subquery/Proofs.v
theories/Subquery/Properties.v
theories/Subquery/ApplyModel.v
theories/Subquery/ApplySpec.v
theories/Subquery/ApplyExec.v
theories/Subquery/ApplyHash.v
theories/Subquery/ApplyNode.v
theories/Subquery/ApplyTop.v
theories/Subquery/PropertiesApply.v
theories/Subquery/AggModel.v
theories/Subquery/AggSpec.v
theories/Subquery/AggProofs.v
theories/Subquery/PropertiesAgg.v
theories/Priv/Model.v
theories/Priv/Spec.v
theories/Priv/Access.v
theories/Priv/Rights.v
theories/Priv/Runs.v
theories/Priv/Index.v
theories/Priv/PropertiesPriv.v
theories/Derived/Spec.v
theories/Derived/Model.v
theories/Derived/Groups.v
theories/Derived/Push.v
theories/Derived/Plan.v
theories/Derived/Distinct.v
theories/Derived/PropertiesDerived.v
theories/Binlog/Spec.v
theories/Binlog/Model.v
theories/Binlog/Maps.v
theories/Binlog/Honest.v
theories/Binlog/Inv.v
theories/Binlog/Read.v
theories/Binlog/Run.v
theories/Binlog/PropertiesBinlog.v
theories/Binlog/Capture.v
theories/Binlog/CaptureSpec.v
theories/Binlog/CaptureProof.v
theories/Binlog/PropertiesCapture.v
theories/Hll/Spec.v
theories/Hll/Model.v
theories/Hll/Dense.v
theories/Hll/Sparse.v
theories/Hll/Ops.v
theories/Hll/Histo.v
theories/Hll/Trees.v
theories/Hll/PropertiesHll.v
theories/Ttl/Spec.v
theories/Ttl/Model.v
theories/Ttl/Claims.v
theories/Ttl/Proofs.v
theories/Ttl/Statements.v
theories/Ttl/Top.v
theories/Ttl/PropertiesTtl.v
theories/Str/Spec.v
theories/Str/Model.v
theories/Str/Proofs.v
theories/Str/Top.v
theories/Str/PropertiesStr.v
theories/Str/CodeSpec.v
theories/Str/Code.v
theories/Str/CodeProofs.v
theories/Str/PropertiesCode.v
