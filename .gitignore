.lia.cache
*.vo
*.vok
*.vos
*.glob
*.aux
.*.d
Makefile
Makefile.conf
__pycache__
.nia.cache
