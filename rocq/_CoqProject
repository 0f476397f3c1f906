-Q theories Verif
theories/Prelude.v
theories/StdMap.v
theories/Json.v
theories/Materials.v
theories/Graph.v
theories/ModelM.v
theories/Parser.v
theories/Matrix.v
theories/Multipole.v
theories/Solver.v
theories/Domain.v
theories/Results.v
theories/Driver.v
theories/SpecInput.v
theories/NamesProofs.v
theories/InputProofs.v
theories/OptionsProofs.v
theories/SpecName.v
theories/NameAny.v
theories/PropsInput.v
theories/ListLemmas.v
theories/SpecModel.v
theories/ModelProofs.v
theories/PropsModel.v
theories/SpecSolver.v
theories/SolverProofs.v
theories/RSum.v
theories/SpecMultipole.v
theories/MultipoleProofs.v
theories/PropsSolver.v
theories/SpecCharge.v
theories/ChargeProofs.v
theories/PropsCharge.v
theories/RemainderProofs.v
theories/PropsMultipole.v
theories/SpecDriver.v
theories/DriverProofs.v
theories/CallProofs.v
theories/RunProofs.v
theories/SpecInner.v
theories/Toy.v
theories/DriverFacts.v
theories/PropsDriver.v
theories/LinAlg.v
theories/SpecMatrix.v
theories/MatrixProofs.v
theories/MatrixCalls.v
theories/MatrixFacts.v
theories/PropsMatrix.v
theories/SpecGraph.v
theories/GraphProofs.v
theories/SplitProofs.v
theories/CycleProofs.v
theories/OpennessProofs.v
theories/ComponentProofs.v
theories/PropsGraph.v
theories/SpecDomain.v
theories/TreeProofs.v
theories/DomainProofs.v
theories/GroundProofs.v
theories/DomainFacts.v
theories/GroundFacts.v
theories/PropsDomain.v
theories/ExtractProofs.v
theories/PropsExtract.v
theories/SpecResults.v
theories/ResultsProofs.v
theories/EqualityProofs.v
theories/PropsResults.v
theories/PropsReadCell.v
theories/SpecBox.v
theories/BoxProofs.v
theories/CellProofs.v
theories/PropsBox.v
theories/SpecField.v
theories/FieldProofs.v
theories/PropsField.v
theories/Fem.v
theories/SpecFem.v
theories/FemProofs.v
theories/FemCalls.v
theories/FemFacts.v
theories/FemModel.v
theories/FemLaws.v
theories/FemDriver.v
theories/FemMatrix.v
theories/SpecRedraw.v
theories/FemMore.v
theories/FemRedraw.v
theories/FemPul.v
theories/FemToy.v
theories/PropsFem.v
theories/Triangles.v
theories/SpecTriangles.v
theories/TriProofs.v
theories/TriModel.v
theories/Kite.v
theories/Hexagon.v
theories/PropsTriangles.v
theories/Main.v
theories/SpecMain.v
theories/MainProofs.v
theories/SpecEnds.v
theories/PropsMain.v
theories/PropsRead.v
theories/SpecRenumber.v
theories/RenumberProofs.v
theories/RenumberCell.v
theories/PropsRenumber.v
theories/VacuumProofs.v
theories/PropsVacuum.v
theories/Iso.v
theories/SpecDrawing.v
theories/TriLocal.v
theories/DrawLocal.v
theories/Drawing.v
theories/DrawDriver.v
theories/DrawCell.v
theories/Sail.v
theories/PropsDrawing.v
theories/PropsTurn.v
theories/SpecFlux.v
theories/FluxProofs.v
theories/PropsFlux.v
theories/SpecExact.v
theories/ExactProofs.v
theories/Plates.v
theories/PropsExact.v
theories/SpecOpen.v
theories/OpenProofs.v
theories/PropsOpen.v
theories/SpecEnergy.v
theories/EnergyProofs.v
theories/Spike.v
theories/PropsEnergy.v
theories/OrderProofs.v
theories/PropsOrder.v
theories/ExportProofs.v
theories/ExportComplete.v
theories/PropsExport.v
theories/Iterative.v
theories/PcgProofs.v
theories/SpecIter.v
theories/IterProofs.v
theories/IterCalls.v
theories/IterFlux.v
theories/IterEnergy.v
theories/IterMatrix.v
theories/ChainIter.v
theories/ChainIterClosed.v
theories/FileChain.v
theories/PropsIterative.v
theories/TestData.v
theories/TestSuite.v
theories/SpecInCell.v
theories/InCellOk.v
theories/Transfer.v
theories/Certificate.v
theories/RationalMesh.v
theories/RationalModel.v
theories/Bars.v
theories/PropsInCell.v
theories/Lifetime.v
theories/SpecLife.v
theories/LifeProofs.v
theories/LifeDriver.v
theories/PropsLife.v
theories/SpecSafe.v
theories/SafeProofs.v
theories/SafeCalls.v
theories/SafeMain.v
theories/PropsSafe.v
theories/SpecQuiet.v
theories/QuietProofs.v
theories/PropsQuiet.v
theories/SpecDouble.v
theories/DoubleFacts.v
theories/Rounding.v
theories/RoundAverage.v
theories/PropsDouble.v
theories/Elements.v
theories/SpecElements.v
theories/RefElements.v
theories/ElemProofs.v
theories/ElemTables.v
theories/ElemModel.v
theories/ElemFields.v
theories/RefProofs.v
theories/Boole.v
theories/PropsElements.v
theories/SpecExtend.v
theories/ElemOrder.v
theories/RefOrder.v
theories/PropsHigher.v
theories/SpecAverages.v
theories/ElemOpen.v
theories/PropsElemOpen.v
theories/Lookup.v
theories/SpecLookup.v
theories/PropsLookup.v
theories/SpecUniform.v
theories/ElemExact.v
theories/PropsElemExact.v
theories/SpecBest.v
theories/PropsBest.v
theories/ElemTransfer.v
theories/RationalElem.v
theories/FastCert.v
theories/Mirror.v
theories/PropsDefault.v
theories/PropsEnds.v
