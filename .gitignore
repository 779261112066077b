*.vo
*.vok
*.vos
*.glob
*.aux
.lia.cache
.nia.cache
.nra.cache
rocq/Makefile
rocq/Makefile.conf
rocq/.Makefile.d
